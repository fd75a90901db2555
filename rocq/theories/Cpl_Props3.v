(** C178: the search for couplings.  C179: rigid body modes. *)
From Coq Require Import Reals List Arith Bool Lia Lra Psatz.
From Verif Require Import Base RBool Cpl_Model Cpl_Spec Cpl_Proofs Cpl_Props Cpl_Props2.
Import ListNotations.
Open Scope R_scope.

Lemma mem_in : forall k l, mem k l = true <-> In k l.
Proof.
  intros k l. unfold mem. rewrite existsb_exists. split; [intros [j [I E]]; apply Nat.eqb_eq in E; subst; exact I|].
  intros I. exists k. split; [exact I|apply Nat.eqb_refl].
Qed.
Lemma insert_in : forall k l x, In x (insert k l) <-> x = k \/ In x l.
Proof.
  intros k l x. unfold insert. destruct (mem k l) eqn:E.
  - apply mem_in in E. intuition. subst. exact E.
  - rewrite in_app_iff. cbn. intuition.
Qed.
Lemma nodup_snoc : forall (k : nat) l, NoDup l -> ~ In k l -> NoDup (l ++ [k]).
Proof.
  induction l as [|a l IH]; intros N H; cbn; [repeat constructor; intros []|]. inversion N; subst. constructor.
  - rewrite in_app_iff. intros [A|[A|[]]]; [contradiction|subst; apply H; left; reflexivity].
  - apply IH; [assumption|]. intros A. apply H. right. exact A.
Qed.
Lemma insert_nodup : forall k l, NoDup l -> NoDup (insert k l).
Proof.
  intros k l N. unfold insert. destruct (mem k l) eqn:E; [exact N|]. apply nodup_snoc; [exact N|].
  intros A. apply mem_in in A. congruence.
Qed.
(** a fold that inserts: membership and no repetition *)
Lemma fold_insert : forall A (f : list nat -> A -> list nat) (P : A -> nat -> Prop) l acc,
  (forall a acc, In a l -> (forall x, In x (f acc a) <-> In x acc \/ P a x) /\ (NoDup acc -> NoDup (f acc a))) ->
  (forall x, In x (fold_left f l acc) <-> In x acc \/ exists a, In a l /\ P a x) /\ (NoDup acc -> NoDup (fold_left f l acc)).
Proof.
  intros A f P. induction l as [|a l IH]; intros acc H; cbn [fold_left].
  - split; [|auto]. intros x. split; [auto|]. intros [X|[b [[] _]]]. exact X.
  - destruct (H a acc (or_introl eq_refl)) as [E N]. destruct (IH (f acc a) (fun b acc I => H b acc (or_intror I))) as [E2 N2].
    split; [|auto]. intros x. rewrite E2, E. split.
    + intros [[X|X]|[b [B X]]]; [left; exact X|right; exists a; split; [left; reflexivity|exact X]|right; exists b; split; [right; exact B|exact X]].
    + intros [X|[b [[B|B] X]]]; [left; left; exact X|left; right; subst; exact X|right; exists b; auto].
Qed.
Lemma on_side_in : forall b s, on_side b s = true <-> In b (sd_ids s).
Proof.
  intros b s. unfold on_side. assert (G : forall l r, fold_left (fun r i => if (i =? b)%nat then true else r) l r = true <-> r = true \/ In b l).
  { induction l as [|i l IH]; intros r; cbn; [intuition|]. rewrite IH. destruct (Nat.eqb_spec i b); intuition. }
  rewrite G. intuition. discriminate.
Qed.
Lemma insert_all_spec : forall ks acc, (forall x, In x (insert_all ks acc) <-> In x acc \/ In x ks) /\ (NoDup acc -> NoDup (insert_all ks acc)).
Proof.
  intros ks acc. unfold insert_all. destruct (fold_insert nat (fun l k => insert k l) (fun a x => x = a) ks acc) as [E N].
  - intros a c _. split; [intros x; rewrite insert_in; intuition|apply insert_nodup].
  - split; [|exact N]. intros x. rewrite E. split; [intros [X|[a [I X]]]; subst; auto|]. intros [X|X]; [auto|]. right. exists x. auto.
Qed.
(** The masters found for a slave: every node of the master boundary on the elements the search returns, once. *)
Theorem C178_masters_boundary : forall search b tol slave,
  NoDup (masters_on_boundary search b tol slave) /\
  forall m, In m (masters_on_boundary search b tol slave) <-> on_boundary (search tol slave) b m.
Proof.
  intros search b tol slave. unfold masters_on_boundary.
  destruct (fold_insert element (fun acc e => fold_left (fun acc s => if on_side b s then insert_all (sd_nodes s) acc else acc) (el_sides e) acc)
    (fun e x => exists s, In s (el_sides e) /\ In b (sd_ids s) /\ In x (sd_nodes s)) (search tol slave) []) as [E N].
  - intros e acc _.
    destruct (fold_insert side (fun acc s => if on_side b s then insert_all (sd_nodes s) acc else acc)
      (fun s x => In b (sd_ids s) /\ In x (sd_nodes s)) (el_sides e) acc) as [E N].
    + intros s c _. destruct (on_side b s) eqn:O.
      * apply on_side_in in O. destruct (insert_all_spec (sd_nodes s) c) as [E N]. split; [|exact N]. intros x. rewrite E. intuition.
      * assert (~ In b (sd_ids s)) by (intros X; apply on_side_in in X; congruence). split; [|auto]. intros x. intuition.
    + split; [|exact N]. intros x. rewrite E. reflexivity.
  - split; [apply N; constructor|]. intros m. rewrite E. unfold on_boundary. split.
    + intros [[]|[e [I [s X]]]]. exists e, s. intuition.
    + intros [e [s [I X]]]. right. exists e. split; [exact I|]. exists s. exact X.
Qed.
(** ... and every node of the master subdomain on those elements that is within the tolerance, once. *)
Theorem C178_masters_subdomain : forall pos search d tol slave,
  NoDup (masters_in_subdomain pos search d tol slave) /\
  forall m, In m (masters_in_subdomain pos search d tol slave) <-> in_subdomain (search tol slave) d m /\ d3 (pos m) (pos slave) <= tol.
Proof.
  intros pos search d tol slave. unfold masters_in_subdomain.
  destruct (fold_insert element (fun acc e => if (el_sub e =? d)%nat then fold_left (fun acc n => if rleb (dist pos n slave) tol then insert n acc else acc) (el_nodes e) acc else acc)
    (fun e x => el_sub e = d /\ In x (el_nodes e) /\ dist pos x slave <= tol) (search tol slave) []) as [E N].
  - intros e acc _. destruct (Nat.eqb_spec (el_sub e) d).
    + destruct (fold_insert nat (fun acc n => if rleb (dist pos n slave) tol then insert n acc else acc)
        (fun n x => x = n /\ dist pos n slave <= tol) (el_nodes e) acc) as [E N].
      * intros n c _. destruct (rleb (dist pos n slave) tol) eqn:L.
        { apply rleb_true in L. split; [intros x; rewrite insert_in; intuition|apply insert_nodup]. }
        { apply rleb_false in L. split; [|auto]. intros x. split; [auto|]. intros [X|[_ X]]; [exact X|lra]. }
      * split; [|exact N]. intros x. rewrite E. split; [intros [X|[n [I [X L]]]]; subst; auto|]. intros [X|[_ [I L]]]; [auto|]. right. exists x. auto.
    + split; [|auto]. intros x. intuition.
  - split; [apply N; constructor|]. intros m. rewrite E. unfold in_subdomain. split.
    + intros [[]|[e [I [S [M L]]]]]. split; [exists e; auto|exact L].
    + intros [[e [I [S M]]] L]. right. exists e. auto.
Qed.

(** the scan *)
Section ScanP.
Variable dbg : bool.
Variable search : R -> nat -> list element.
Variable tol : R.
Variable masters : nat -> list nat.
Let step := scan_node dbg search tol masters.
Definition grown (l0 : list (nat * list nat)) (ns : list nat) : list (nat * list nat) := l0 ++ map (fun n => (n, masters n)) ns.
(** invariant: the couplings are l0 and one for each node seen, in order *)
Definition st_ok (l0 : list (nat * list nat)) (r : outcome (list (nat * list nat) * list nat)) (P : nat -> Prop) : Prop :=
  match r with
  | Ok (l, seen) => l = grown l0 seen /\ NoDup seen /\ (forall n, In n seen <-> P n) /\ (dbg = true -> forall n, P n -> search tol n <> [])
  | Fault e => e = AssertFailed /\ dbg = true /\ exists n, P n /\ search tol n = []
  end.
Lemma st_ext : forall l0 r P Q, (forall n, P n <-> Q n) -> st_ok l0 r P -> st_ok l0 r Q.
Proof.
  intros l0 r P Q H. unfold st_ok. destruct r as [[l seen]|e].
  - intros [A [B [C D]]]. split; [exact A|]. split; [exact B|]. split; [intros n; rewrite C; apply H|]. intros X n Y. apply D; [exact X|]. apply H. exact Y.
  - intros [A [B [n [C D]]]]. split; [exact A|]. split; [exact B|]. exists n. split; [apply H; exact C|exact D].
Qed.
Lemma step_ok : forall l0 r P n, st_ok l0 r P -> st_ok l0 (step r n) (fun x => P x \/ x = n).
Proof.
  intros l0 r P n H. unfold step, scan_node. destruct r as [[l seen]|e]; cbn [bind].
  - destruct H as [A [B [C D]]]. destruct (mem n seen) eqn:M.
    + apply mem_in in M. cbn. split; [exact A|]. split; [exact B|]. split.
      * intros x. rewrite C. split; [auto|]. intros [X|X]; [exact X|]. subst. apply C. exact M.
      * intros X x [Y|Y]; [apply D; auto|]. rewrite Y. apply D; [exact X|]. apply C. exact M.
    + assert (NM : ~ In n seen) by (intros X; apply mem_in in X; congruence).
      destruct (dbg && (length (search tol n) =? 0)%nat) eqn:G.
      * apply andb_true_iff in G. destruct G as [G1 G2]. apply Nat.eqb_eq in G2. cbn. split; [reflexivity|]. split; [exact G1|].
        exists n. split; [right; reflexivity|]. destruct (search tol n); [reflexivity|discriminate].
      * cbn. unfold insert. rewrite M. split; [subst; unfold grown; rewrite map_app, app_assoc; reflexivity|].
        split; [apply nodup_snoc; assumption|]. split.
        { intros x. rewrite in_app_iff, C. cbn. intuition. }
        { intros X y [Y|Y]; [apply D; auto|]. rewrite Y. intros Z. rewrite X, Z in G. discriminate. }
  - destruct H as [A [B [x [C D]]]]. cbn. split; [exact A|]. split; [exact B|]. exists x. auto.
Qed.
Lemma nodes_ok : forall l0 ns r P, st_ok l0 r P -> st_ok l0 (fold_left step ns r) (fun x => P x \/ In x ns).
Proof.
  induction ns as [|n ns IH]; intros r P H; cbn [fold_left].
  - eapply st_ext; [|exact H]. intros x. cbn. intuition.
  - eapply st_ext; [|apply IH; apply step_ok; exact H]. intros x. cbn. intuition.
Qed.
Lemma sides_ok : forall l0 b ss r P, st_ok l0 r P ->
  st_ok l0 (fold_left (fun cs s => if on_side b s then fold_left step (sd_nodes s) cs else cs) ss r)
    (fun x => P x \/ exists s, In s ss /\ In b (sd_ids s) /\ In x (sd_nodes s)).
Proof.
  induction ss as [|s ss IH]; intros r P H; cbn [fold_left].
  - eapply st_ext; [|exact H]. intros x. split; [auto|]. intros [X|[s [[] _]]]. exact X.
  - destruct (on_side b s) eqn:O.
    + apply on_side_in in O. eapply st_ext; [|apply IH; apply nodes_ok; exact H]. intros x. split.
      * intros [[X|X]|[t [T X]]]; [auto|right; exists s; cbn; auto|right; exists t; cbn; auto].
      * intros [X|[t [[T|T] X]]]; [auto|subst; left; right; apply X|right; exists t; auto].
    + assert (~ In b (sd_ids s)) by (intros X; apply on_side_in in X; congruence).
      eapply st_ext; [|apply IH; exact H]. intros x. split.
      * intros [X|[t [T X]]]; [auto|right; exists t; cbn; auto].
      * intros [X|[t [[T|T] X]]]; [auto|subst; exfalso; apply H0; apply X|right; exists t; auto].
Qed.
Lemma elems_ok : forall l0 b es r P, st_ok l0 r P ->
  st_ok l0 (fold_left (fun cs e => fold_left (fun cs s => if on_side b s then fold_left step (sd_nodes s) cs else cs) (el_sides e) cs) es r)
    (fun x => P x \/ on_boundary es b x).
Proof.
  induction es as [|e es IH]; intros r P H; cbn [fold_left].
  - eapply st_ext; [|exact H]. intros x. split; [auto|]. intros [X|[e [s [[] _]]]]. exact X.
  - eapply st_ext; [|apply IH; apply sides_ok; exact H]. intros x. unfold on_boundary. split.
    + intros [[X|[s X]]|[f [s [I X]]]]; [auto|right; exists e, s; cbn; auto|right; exists f, s; cbn; auto].
    + intros [X|[f [s [[I|I] X]]]]; [auto|subst; left; right; exists s; exact X|right; exists f, s; auto].
Qed.
End ScanP.
(** Every node of the slave boundary on the local elements gets one coupling, with its masters, after those found
    before; nothing else is added. *)
Theorem C178_slaves : forall dbg local search tol masters b l0 l,
  scan dbg local search tol masters b l0 = Ok l ->
  exists ns, l = l0 ++ map (fun n => (n, masters n)) ns /\ NoDup ns /\ (forall n, In n ns <-> on_boundary local b n).
Proof.
  intros dbg local search tol masters b l0 l H. unfold scan in H.
  pose proof (elems_ok dbg search tol masters l0 b local (Ok (l0, [])) (fun _ => False)) as G.
  specialize (G ltac:(cbn; unfold grown; rewrite app_nil_r; repeat split; [constructor|tauto|tauto|tauto])).
  destruct (fold_left _ local _) as [[l' seen]|e]; [|discriminate]. cbn in H. injection H as <-. destruct G as [A [B [C _]]].
  exists seen. split; [exact A|]. split; [exact B|]. intros n. rewrite C. tauto.
Qed.
(** It fails only with assertions, when the search finds no element at some slave node. *)
Theorem C178_runs : forall dbg local search tol masters b l0,
  (dbg = false \/ forall n, on_boundary local b n -> search tol n <> []) <-> exists l, scan dbg local search tol masters b l0 = Ok l.
Proof.
  intros dbg local search tol masters b l0. unfold scan.
  pose proof (elems_ok dbg search tol masters l0 b local (Ok (l0, [])) (fun _ => False)) as G.
  specialize (G ltac:(cbn; unfold grown; rewrite app_nil_r; repeat split; [constructor|tauto|tauto|tauto])).
  destruct (fold_left _ local _) as [[l' seen]|e]; cbn.
  - destruct G as [_ [_ [_ D]]]. split; [eauto|]. intros _. destruct dbg; [right|left; reflexivity]. intros n N. apply D; auto.
  - destruct G as [_ [D [n [[[]|N] S]]]]. split; [|intros [l X]; discriminate]. intros [X|X]; [congruence|]. exfalso. apply (X n N S).
Qed.
(** The results of both searches, end to end: the couplings found can be handed on, and each has distinct masters. *)
Theorem C178_handed_on : forall dbg pos dofs d local search mb sb tol rot l, six dofs d ->
  couple_boundary dbg local search mb sb tol [] = Ok l ->
  exists s rows, add_all dbg k_start l rot = Ok s /\ get_constraint_rows pos dofs dbg s = Ok (rows, mkK true (k_map s)) /\
    forall k, In k (tied rows) <-> exists n i, on_boundary local sb n /\ (i < (if rot then 6 else 3))%nat /\ k = d n i.
Proof.
  intros dbg pos dofs d local search mb sb tol rot l S H. unfold couple_boundary in H.
  destruct (C178_slaves _ _ _ _ _ _ _ _ H) as [ns [E [N I]]]. cbn in E. subst l.
  set (cs := map (fun n => (n, masters_on_boundary search mb tol n)) ns) in *.
  assert (K : map fst cs = ns) by (unfold cs; rewrite map_map; apply map_id).
  rewrite C177_all_kept by (rewrite K; exact N). exists (mkK false (reg rot cs)).
  destruct (C177_rows dbg pos dofs d rot cs S ltac:(rewrite K; exact N)) as [r [E [_ [T _]]]].
  { intros c C. unfold cs in C. apply in_map_iff in C. destruct C as [n [<- _]]. apply C178_masters_boundary. }
  exists r. split; [reflexivity|]. split; [exact E|]. intros k. rewrite T. split.
  - intros [c [i [C X]]]. exists (fst c), i. split; [|exact X]. apply I. rewrite <- K. apply in_map. exact C.
  - intros [n [i [X Y]]]. exists (n, masters_on_boundary search mb tol n), i. split; [|exact Y].
    unfold cs. apply (in_map (fun n => (n, masters_on_boundary search mb tol n))). apply I. exact X.
Qed.
(** A slave without a master nearby is coupled to nothing, which clamps it. *)
Theorem C178_unmatched_refuted : forall pos dofs d s rot u l, six dofs d ->
  get_dof_constraint_row pos dofs s [] rot = Ok l -> (forall c, In c l -> holds u c) ->
  forall i, (i < (if rot then 6 else 3))%nat -> u (d s i) = 0.
Proof.
  intros pos dofs d s rot u l S E H i I. destruct (C176_value pos dofs d s [] rot S ltac:(constructor)) as [l' [E' [_ [_ U]]]].
  rewrite E in E'. injection E' as <-. apply U in H. destruct H as [A B]. destruct (Nat.lt_ge_cases i 3).
  - rewrite A by assumption. reflexivity.
  - destruct rot; [|lia]. rewrite (B eq_refl) by lia. reflexivity.
Qed.
Theorem C178_unmatched_found : forall local search mb sb tol l0 n,
  on_boundary local sb n -> (forall m, ~ on_boundary (search tol n) mb m) -> search tol n <> [] ->
  exists l, couple_boundary false local search mb sb tol l0 = Ok l /\ In (n, []) l.
Proof.
  intros local search mb sb tol l0 n B M S. unfold couple_boundary.
  destruct (proj1 (C178_runs false local search tol (masters_on_boundary search mb tol) sb l0) (or_introl eq_refl)) as [l E].
  exists l. split; [exact E|]. destruct (C178_slaves _ _ _ _ _ _ _ _ E) as [ns [-> [_ I]]]. apply in_or_app. right.
  apply in_map_iff. exists n. split; [|apply I; exact B]. f_equal.
  destruct (masters_on_boundary search mb tol n) as [|m l] eqn:Q; [reflexivity|]. exfalso. apply (M m).
  apply C178_masters_boundary. rewrite Q. left. reflexivity.
Qed.
(** A slave on both boundaries becomes its own master. *)
Theorem C178_own_master_refuted : forall search mb tol n, on_boundary (search tol n) mb n ->
  In n (masters_on_boundary search mb tol n).
Proof. intros. apply C178_masters_boundary. assumption. Qed.
(** Two searches with a common slave node give two couplings for it, which the registry refuses with assertions. *)
Theorem C178_two_calls_refuted : forall local search mb1 mb2 sb1 sb2 tol l1 l2 n rot,
  couple_boundary true local search mb1 sb1 tol [] = Ok l1 -> couple_boundary true local search mb2 sb2 tol l1 = Ok l2 ->
  on_boundary local sb1 n -> on_boundary local sb2 n -> add_all true k_start l2 rot = Fault AssertFailed.
Proof.
  intros local search mb1 mb2 sb1 sb2 tol l1 l2 n rot E1 E2 B1 B2. unfold couple_boundary in *.
  destruct (C178_slaves _ _ _ _ _ _ _ _ E1) as [n1 [-> [_ I1]]]. destruct (C178_slaves _ _ _ _ _ _ _ _ E2) as [n2 [-> [_ I2]]].
  apply C177_twice_refused. cbn [app]. rewrite map_app, !map_map. cbn [fst]. rewrite !map_id.
  apply I1 in B1. apply I2 in B2. intros N. apply in_split in B2. destruct B2 as [a [b ->]].
  rewrite app_assoc in N. apply NoDup_remove_2 in N. apply N. apply in_or_app. left. apply in_or_app. left. exact B1.
Qed.
(** two elements side by side: 0 - 1 | 2 - 3, with node 2 the slave and node 1 the master *)
Definition ex_e1 := mkEl 0 [0%nat; 1%nat] [mkSide [9%nat] [0%nat]; mkSide [1%nat] [1%nat]].
Definition ex_e2 := mkEl 1 [2%nat; 3%nat] [mkSide [7%nat] [2%nat]; mkSide [8%nat] [3%nat]].
Example C178_witness :
  couple_boundary true [ex_e1; ex_e2] (fun _ _ => [ex_e1; ex_e2]) 1 7 1 [] = Ok [(2%nat, [1%nat])] /\
  couple_boundary true [ex_e1; ex_e2] (fun _ _ => [ex_e2]) 1 7 1 [] = Ok [(2%nat, [])] /\
  couple_boundary true [ex_e1; ex_e2] (fun _ _ => [ex_e2]) 7 7 1 [] = Ok [(2%nat, [2%nat])].
Proof. repeat split; reflexivity. Qed.
Print Assumptions C178_handed_on.
Print Assumptions C178_masters_subdomain.

(** ** Rigid body modes *)
Theorem C179_runs : forall dbg p, exists m, (forall k, (k < 6)%nat -> mode k p = Ok (m k)) /\ near_null dbg 0 p = Ok (map m (seq 0 6)).
Proof.
  intros dbg p. exists (fun k => match mode k p with Ok m => m | Fault _ => zeros end). split.
  - intros k K. do 6 (destruct k as [|k]; [reflexivity|]). lia.
  - unfold near_null. rewrite andb_false_r. reflexivity.
Qed.
Theorem C179_not_empty : forall size p, (0 < size)%nat -> near_null true size p = Fault AssertFailed.
Proof. intros size p H. unfold near_null. destruct size; [lia|]. reflexivity. Qed.
Theorem C179_unknown : forall k p, (6 <= k)%nat -> mode k p = Fault LibError.
Proof. intros k p H. do 6 (destruct k as [|k]; [lia|]). reflexivity. Qed.
(** Each of the six fields moves the body without changing any distance. *)
Theorem C179_rigid : forall k p q mp mq, mode k p = Ok mp -> mode k q = Ok mq -> d3 (moved mp p) (moved mq q) = d3 p q.
Proof.
  intros k p q mp mq Hp Hq. unfold d3. f_equal.
  assert (C : cos th ^ 2 + sin th ^ 2 = 1) by (pose proof (sin2_cos2 th) as X; unfold Rsqr in X; lra).
  destruct k as [|[|[|[|[|[|k]]]]]]; cbn [mode] in Hp, Hq; try discriminate; injection Hp as <-; injection Hq as <-;
    unfold moved, upd, zeros; cbn [sum Nat.eqb]; try ring;
    generalize dependent (cos th); intros c; generalize (sin th); intros z H;
    set (x := p 0%nat); set (y := p 1%nat); set (w := p 2%nat); set (x' := q 0%nat); set (y' := q 1%nat); set (w' := q 2%nat).
  - transitivity ((x - x') ^ 2 + (c ^ 2 + z ^ 2) * ((y - y') ^ 2 + (w - w') ^ 2)); [ring|rewrite H; ring].
  - transitivity ((y - y') ^ 2 + (c ^ 2 + z ^ 2) * ((x - x') ^ 2 + (w - w') ^ 2)); [ring|rewrite H; ring].
  - transitivity ((w - w') ^ 2 + (c ^ 2 + z ^ 2) * ((x - x') ^ 2 + (y - y') ^ 2)); [ring|rewrite H; ring].
Qed.
Lemma th_pos : 0 < th < 1.
Proof. unfold th. split; [apply Rinv_0_lt_compat; lra|]. rewrite <- Rinv_1. apply Rinv_lt_contravar; lra. Qed.
(** The six values at any single point are independent. *)
Theorem C179_independent : forall p (m : nat -> nat -> R) (c : nat -> R), (forall k, (k < 6)%nat -> mode k p = Ok (m k)) ->
  (forall i, (i < 6)%nat -> sum 6 (fun k => c k * m k i) = 0) -> forall k, (k < 6)%nat -> c k = 0.
Proof.
  intros p m c H S. pose proof th_pos as T.
  assert (M : forall k, (k < 6)%nat -> m k = match mode k p with Ok x => x | Fault _ => zeros end) by (intros k K; rewrite (H k K); reflexivity).
  pose proof (M 0%nat ltac:(lia)) as M0. pose proof (M 1%nat ltac:(lia)) as M1. pose proof (M 2%nat ltac:(lia)) as M2.
  pose proof (M 3%nat ltac:(lia)) as M3. pose proof (M 4%nat ltac:(lia)) as M4. pose proof (M 5%nat ltac:(lia)) as M5.
  cbn [mode] in M0, M1, M2, M3, M4, M5.
  assert (Z : forall i, (i < 6)%nat -> _) by exact S. cbn [sum] in Z. rewrite M0, M1, M2, M3, M4, M5 in Z.
  pose proof (Z 3%nat ltac:(lia)) as Z3. pose proof (Z 4%nat ltac:(lia)) as Z4. pose proof (Z 5%nat ltac:(lia)) as Z5.
  pose proof (Z 0%nat ltac:(lia)) as Z0. pose proof (Z 1%nat ltac:(lia)) as Z1. pose proof (Z 2%nat ltac:(lia)) as Z2.
  unfold upd, zeros in Z0, Z1, Z2, Z3, Z4, Z5. cbn [Nat.eqb] in Z0, Z1, Z2, Z3, Z4, Z5.
  assert (c 3%nat = 0) by (apply (Rmult_eq_reg_r th); lra). assert (c 4%nat = 0) by (apply (Rmult_eq_reg_r th); lra).
  assert (c 5%nat = 0) by (apply (Rmult_eq_reg_r th); lra).
  rewrite H0, H1, H2 in *. intros k K. do 6 (destruct k as [|k]; [lra|]). lia.
Qed.
(** Translations are exactly translations; a rotation turns the node by th about its own axis only. *)
Theorem C179_translation : forall k p m i, (k < 3)%nat -> mode k p = Ok m -> m i = if (i =? k)%nat then 1 else 0.
Proof. intros k p m i K H. do 3 (destruct k as [|k]; [cbn in H; injection H as <-; reflexivity|]). lia. Qed.
Theorem C179_rotation : forall k p m i, (k < 3)%nat -> mode (3 + k) p = Ok m -> (i < 3)%nat ->
  m (3 + i)%nat = (if (i =? k)%nat then th else 0) /\ m k = 0.
Proof.
  intros k p m i K H I. do 3 (destruct k as [|k]; [cbn in H; injection H as <-; do 3 (destruct i as [|i]; [split; reflexivity|]); lia|]). lia.
Qed.
(** To first order the displacement is th times (axis x position). *)
Lemma cos_th : -(th ^ 2 / 2) <= cos th - 1 <= 0.
Proof.
  pose proof th_pos as T. split.
  - pose proof (cos_bound th 0 ltac:(pose proof PI2_1; lra) ltac:(pose proof PI2_1; lra)) as [L _]. unfold cos_approx, cos_term in L. cbn in L. lra.
  - pose proof (COS_bound th). lra.
Qed.
Lemma sin_th : -(th ^ 3 / 6) <= sin th - th <= 0.
Proof.
  pose proof th_pos as T. assert (P : th <= PI) by (pose proof PI2_1; lra). split.
  - pose proof (sin_bound th 0 ltac:(lra) P) as [L _]. unfold sin_approx, sin_term in L. cbn in L. lra.
  - pose proof (sin_lt_x th ltac:(lra)). lra.
Qed.
Theorem C179_first_order_partial : forall k p m i, (k < 3)%nat -> mode (3 + k) p = Ok m -> (i < 3)%nat ->
  Rabs (m i - th * cross (fun j => if (j =? k)%nat then 1 else 0) p i) <= th ^ 2 * (Rabs (p 0%nat) + Rabs (p 1%nat) + Rabs (p 2%nat)).
Proof.
  intros k p m i K H I. pose proof th_pos as T. pose proof cos_th as C. pose proof sin_th as S.
  assert (Cb : Rabs (cos th - 1) <= th ^ 2) by (apply Rabs_le; nra).
  assert (Sb : Rabs (sin th - th) <= th ^ 2) by (apply Rabs_le; nra).
  assert (G : forall a b x y, Rabs a <= th ^ 2 -> Rabs b <= th ^ 2 -> Rabs (a * x + b * y) <= th ^ 2 * (Rabs x + Rabs y)).
  { intros a b x y A B. eapply Rle_trans; [apply Rabs_triang|]. rewrite !Rabs_mult. pose proof (Rabs_pos x). pose proof (Rabs_pos y). nra. }
  assert (Z : Rabs 0 <= th ^ 2) by (rewrite Rabs_R0; nra).
  assert (Sn : Rabs (- (sin th - th)) <= th ^ 2) by (rewrite Rabs_Ropp; exact Sb).
  pose proof (Rabs_pos (p 0%nat)). pose proof (Rabs_pos (p 1%nat)). pose proof (Rabs_pos (p 2%nat)).
  destruct k as [|[|[|k]]]; [| | |lia]; cbn in H; injection H as <-; (destruct i as [|[|[|i]]]; [| | |lia]); unfold upd, zeros, cross; cbn [Nat.eqb];
    match goal with |- Rabs ?e <= _ =>
      first [ replace e with (0 * p 0%nat + 0 * p 1%nat) by ring; eapply Rle_trans; [apply G; assumption|nra]
            | replace e with ((cos th - 1) * p 1%nat + - (sin th - th) * p 2%nat) by ring; eapply Rle_trans; [apply G; assumption|nra]
            | replace e with ((sin th - th) * p 1%nat + (cos th - 1) * p 2%nat) by ring; eapply Rle_trans; [apply G; assumption|nra]
            | replace e with ((cos th - 1) * p 0%nat + (sin th - th) * p 2%nat) by ring; eapply Rle_trans; [apply G; assumption|nra]
            | replace e with (- (sin th - th) * p 0%nat + (cos th - 1) * p 2%nat) by ring; eapply Rle_trans; [apply G; assumption|nra]
            | replace e with ((cos th - 1) * p 0%nat + - (sin th - th) * p 1%nat) by ring; eapply Rle_trans; [apply G; assumption|nra]
            | replace e with ((sin th - th) * p 0%nat + (cos th - 1) * p 1%nat) by ring; eapply Rle_trans; [apply G; assumption|nra] ]
    end.
Qed.
(** The linear strain of a rotation is not zero: a line across the axis is shortened by 1 - cos th in the linear
    measure, so these are not null vectors of a linear stiffness. *)
Theorem C179_linear_refuted : forall k, (k < 3)%nat -> forall p, let j := (if k =? 0 then 1 else 0)%nat in
  forall t m m', t <> 0 -> mode (3 + k) p = Ok m -> mode (3 + k) (upd p j (p j + t)) = Ok m' -> (m' j - m j) / t = cos th - 1 /\ cos th - 1 < 0.
Proof.
  intros k K p j t m m' T H H'. split.
  - destruct k as [|[|[|k]]]; [| | |lia]; cbn in H, H', j; injection H as <-; injection H' as <-; unfold j, upd; cbn [Nat.eqb]; field; exact T.
  - pose proof th_pos. pose proof (cos_decreasing_1 0 th ltac:(lra) ltac:(pose proof PI2_1; lra) ltac:(lra) ltac:(pose proof PI2_1; lra) ltac:(lra)) as X.
    rewrite cos_0 in X. lra.
Qed.
Example C179_witness : exists m, mode 3 (fun i => INR i) = Ok m /\ m 3%nat = th /\ m 1%nat = (cos th * 1 - sin th * 2) - 1.
Proof. eexists. split; [reflexivity|]. split; [reflexivity|]. unfold upd. cbn. ring. Qed.
Print Assumptions C179_rigid.
Print Assumptions C179_linear_refuted.
