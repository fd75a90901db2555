(** C182: constraints on the dofs of the void.  C183: constraints by indicator function. *)
From Coq Require Import Reals List Arith Bool Permutation Lia Lra Classical_Prop.
From Verif Require Import Base RBool Vdo_Model Vdo_Spec.
Import ListNotations.
Open Scope R_scope.

Lemma Rltb_spec : forall a b, reflect (a < b) (rltb a b).
Proof. intros. unfold rltb. destruct (Rlt_dec a b); constructor; assumption. Qed.
Lemma Rleb_spec : forall a b, reflect (a <= b) (rleb a b).
Proof. intros. unfold rleb. destruct (Rle_dec a b); constructor; assumption. Qed.
Lemma in_ins : forall d s x, In x (ins d s) <-> x = d \/ In x s.
Proof.
  intros d s x. assert (Y : x = d <-> d = x) by (split; congruence). rewrite Y. clear Y.
  induction s as [|a s IH]; cbn [ins]; [reflexivity|].
  destruct (Nat.ltb_spec d a); [reflexivity|]. destruct (Nat.eqb_spec d a); [subst; cbn; tauto|]. cbn. rewrite IH. tauto.
Qed.
Lemma in_insert_all : forall ds s x, In x (insert_all ds s) <-> In x ds \/ In x s.
Proof.
  unfold insert_all. induction ds as [|d ds IH]; intros s x; cbn; [tauto|]. rewrite IH, in_ins.
  assert (Y : x = d <-> d = x) by (split; congruence). tauto.
Qed.
Inductive sorted : list nat -> Prop :=
| sorted_nil : sorted []
| sorted_cons : forall a s, (forall b, In b s -> (a < b)%nat) -> sorted s -> sorted (a :: s).
Lemma sorted_ins : forall d s, sorted s -> sorted (ins d s).
Proof.
  intros d s S. induction S as [|a s L S IH]; cbn [ins]; [constructor; [intros b []|constructor]|].
  destruct (Nat.ltb_spec d a).
  - constructor; [|constructor; assumption]. intros b [<-|I]; [assumption|]. specialize (L b I). lia.
  - destruct (Nat.eqb_spec d a); [constructor; assumption|]. constructor; [|assumption]. intros b I. apply in_ins in I. destruct I as [->|I]; [lia|auto].
Qed.
Lemma sorted_insert_all : forall ds s, sorted s -> sorted (insert_all ds s).
Proof. unfold insert_all. induction ds as [|d ds IH]; intros s S; [exact S|]. cbn. apply IH. apply sorted_ins. exact S. Qed.
Lemma sorted_nodup : forall s, sorted s -> NoDup s.
Proof. intros s S. induction S as [|a s L S IH]; constructor; [|assumption]. intros I. specialize (L a I). lia. Qed.
Lemma mem_in : forall d s, mem d s = true <-> In d s.
Proof.
  intros d s. unfold mem. rewrite existsb_exists. split; [intros [x [I E]]; apply Nat.eqb_eq in E; subst; exact I|intros I; exists d; split; [exact I|apply Nat.eqb_refl]].
Qed.
Definition all_of (st : list nat * list nat * list nat) : list nat := fst (fst st).
Definition conn_of (st : list nat * list nat * list nat) : list nat := snd (fst st).
Definition neg_of (st : list nat * list nat * list nat) : list nat := snd st.
Lemma neg_loop : forall nds neg x,
  In x (fold_left (fun neg nd => if rleb (fst nd) 0 then insert_all (snd nd) neg else neg) nds neg) <->
  (exists phi ds, In (phi, ds) nds /\ phi <= 0 /\ In x ds) \/ In x neg.
Proof.
  induction nds as [|[phi ds] nds IH]; intros neg x; cbn; [firstorder|]. rewrite IH. destruct (Rleb_spec phi 0).
  - rewrite in_insert_all. split.
    + intros [(p & q & I & L & J)|[J|J]]; [left; exists p, q; auto|left; exists phi, ds; auto|right; exact J].
    + intros [(p & q & [E|I] & L & J)|J]; [inversion E; subst; right; left; exact J|left; exists p, q; auto|right; right; exact J].
  - split.
    + intros [(p & q & I & L & J)|J]; [left; exists p, q; auto|right; exact J].
    + intros [(p & q & [E|I] & L & J)|J]; [inversion E; subst; lra|left; exists p, q; auto|right; exact J].
Qed.
Lemma loop_spec : forall o cells st,
  let st' := fold_left (cell_step o) cells st in
  (forall x, In x (all_of st') <-> (exists c, In c cells /\ In x (v_dofs c)) \/ In x (all_of st)) /\
  (forall x, In x (conn_of st') <-> (exists c, In c cells /\ v_pos c = true /\ In x (v_dofs c)) \/ In x (conn_of st)) /\
  (forall x, In x (neg_of st') <-> (o = true /\ low_dof cells x) \/ In x (neg_of st)) /\
  (sorted (all_of st) -> sorted (all_of st')) /\ (sorted (conn_of st) -> sorted (conn_of st')).
Proof.
  intros o. induction cells as [|c cells IH]; intros st; cbn [fold_left].
  - cbn. split; [firstorder|]. split; [firstorder|]. split; [|auto]. intros x. split; [auto|]. intros [[_ (c & p & q & [] & _)]|H]; exact H.
  - destruct (IH (cell_step o st c)) as (A & B & N & S1 & S2). destruct st as [[all conn] neg].
    cbn [all_of conn_of neg_of fst snd cell_step] in *.
    split; [|split; [|split; [|split]]].
    + intros x. rewrite A, in_insert_all. split.
      * intros [(c' & I & J)|[J|J]]; [left; exists c'; split; [right; exact I|exact J]|left; exists c; split; [left; reflexivity|exact J]|right; exact J].
      * intros [(c' & [<-|I] & J)|J]; [right; left; exact J|left; exists c'; auto|right; right; exact J].
    + intros x. rewrite B. destruct (v_pos c) eqn:P; [rewrite in_insert_all|]; split.
      * intros [(c' & I & Q & J)|[J|J]]; [left; exists c'; split; [right; exact I|auto]|left; exists c; split; [left; reflexivity|auto]|right; exact J].
      * intros [(c' & [<-|I] & Q & J)|J]; [right; left; exact J|left; exists c'; auto|right; right; exact J].
      * intros [(c' & I & Q & J)|J]; [left; exists c'; split; [right; exact I|auto]|right; exact J].
      * intros [(c' & [<-|I] & Q & J)|J]; [congruence|left; exists c'; auto|right; exact J].
    + intros x. rewrite N. destruct o; cbn [andb].
      * destruct (v_cut c) eqn:P; [rewrite neg_loop|]; split.
        -- intros [[O (c' & p & q & I & Q)]|[(p & q & Q)|J]]; [left; split; [reflexivity|]; exists c', p, q; split; [right; exact I|exact Q]|left; split; [reflexivity|]; exists c, p, q; split; [left; reflexivity|split; [exact P|exact Q]]|right; exact J].
        -- intros [[O (c' & p & q & [<-|I] & Q)]|J]; [right; left; exists p, q; tauto|left; split; [reflexivity|]; exists c', p, q; tauto|right; right; exact J].
        -- intros [[O (c' & p & q & I & Q)]|J]; [left; split; [reflexivity|]; exists c', p, q; split; [right; exact I|exact Q]|right; exact J].
        -- intros [[O (c' & p & q & [<-|I] & Q)]|J]; [destruct Q as [Q _]; congruence|left; split; [reflexivity|]; exists c', p, q; tauto|right; exact J].
      * split; intros [[O _]|J]; try discriminate; right; exact J.
    + intros S. apply S1. apply sorted_insert_all. exact S.
    + intros S. apply S2. destruct (v_pos c); [apply sorted_insert_all|]; exact S.
Qed.
Lemma add_rows_spec : forall skip ds C, exists C', add_rows skip ds C = Ok C' /\ zeroed (fun d => In d ds /\ skip d = false) C C'.
Proof.
  intros skip. induction ds as [|d ds IH]; intros C.
  { exists C. split; [reflexivity|]. intros d. repeat split; auto. intros _ [[] _]. }
  cbn [add_rows]. destruct (is_constrained C d) eqn:E; cbn [orb].
  { destruct (IH C) as [C' [E1 Z]]. exists C'. split; [exact E1|]. intros x. destruct (Z x) as (Z1 & Z2 & Z3).
    split; [exact Z1|]. split.
    - intros N [[<-|I] S]; [unfold is_constrained in E; rewrite N in E; discriminate|auto].
    - intros N Q. apply Z3; [exact N|]. intros [I S]. apply Q. split; [right; exact I|exact S]. }
  destruct (skip d) eqn:K.
  { destruct (IH C) as [C' [E1 Z]]. exists C'. split; [exact E1|]. intros x. destruct (Z x) as (Z1 & Z2 & Z3).
    split; [exact Z1|]. split.
    - intros N [[<-|I] S]; [congruence|auto].
    - intros N Q. apply Z3; [exact N|]. intros [I S]. apply Q. split; [right; exact I|exact S]. }
  unfold add_row. rewrite E. cbn [bind].
  destruct (IH (fun k => if (k =? d)%nat then Some [] else C k)) as [C' [E1 Z]]. exists C'. split; [exact E1|].
  assert (Cd : C d = None) by (unfold is_constrained in E; destruct (C d); [discriminate|reflexivity]).
  intros x. pose proof (Z x) as Zx. cbv beta in Zx. destruct (Nat.eq_dec x d) as [Ex|Nx].
  - subst x. rewrite Nat.eqb_refl in Zx. destruct Zx as (Z1 & Z2 & Z3). split; [congruence|]. split.
    + intros _ _. apply Z1. discriminate.
    + intros _ Q. destruct Q. split; [left; reflexivity|exact K].
  - apply Nat.eqb_neq in Nx as Nb. rewrite Nb in Zx. destruct Zx as (Z1 & Z2 & Z3). split; [exact Z1|]. split.
    + intros N [[Ed|I] S]; [congruence|auto].
    + intros N Q. apply Z3; [exact N|]. intros [I S]. apply Q. split; [right; exact I|exact S].
Qed.
Lemma zeroed_ext : forall P Q C C', (forall d, P d <-> Q d) -> zeroed P C C' -> zeroed Q C C'.
Proof. intros P Q C C' E Z d. destruct (Z d) as (Z1 & Z2 & Z3). split; [exact Z1|]. split; intros N H; [apply Z2|apply Z3]; auto; [apply E; exact H|]. intros K. apply H. apply E. exact K. Qed.
Lemma zeroed_trans : forall P Q C C1 C2, (forall d, P d \/ ~ P d) -> zeroed P C C1 -> zeroed Q C1 C2 -> zeroed (fun d => P d \/ Q d) C C2.
Proof.
  intros P Q C C1 C2 D Z Y d. destruct (Z d) as (Z1 & Z2 & Z3), (Y d) as (Y1 & Y2 & Y3). split; [|split].
  - intros N. rewrite <- (Z1 N). apply Y1. rewrite Z1; assumption.
  - intros N H. destruct (D d) as [Pd|Pd].
    + rewrite Y1; [apply Z2; assumption|]. rewrite Z2; [discriminate|assumption|assumption].
    + destruct H as [H|H]; [contradiction|]. apply Y2; [apply Z3; assumption|exact H].
  - intros N H. apply Y3; [apply Z3; [exact N|]|]; intros K; apply H; auto.
Qed.

Lemma constrain_spec : forall o cells C, exists C', constrain o cells C = Ok C' /\
  zeroed (fun d => void_dof cells d \/ (o = true /\ low_dof cells d)) C C'.
Proof.
  intros o cells C. unfold constrain.
  destruct (loop_spec o cells ([], [], [])) as (A & B & N & S1 & S2).
  destruct (fold_left (cell_step o) cells ([], [], [])) as [[all conn] neg] eqn:F.
  cbn [all_of conn_of neg_of fst snd] in *.
  assert (L : (length conn <= length all)%nat).
  { apply NoDup_incl_length; [apply sorted_nodup; apply S2; constructor|]. intros x I. apply A. apply B in I.
    destruct I as [(c & I & _ & J)|[]]. left. exists c. auto. }
  destruct (Nat.ltb_spec (length all) (length conn)); [lia|].
  destruct (add_rows_spec (fun _ => false) (filter (fun d => negb (mem d conn)) all) C) as [C1 [E1 Z1]].
  rewrite E1. cbn [bind].
  assert (V : forall d, (In d (filter (fun d => negb (mem d conn)) all) /\ (fun _ : nat => false) d = false) <-> void_dof cells d).
  { intros d. rewrite filter_In, negb_true_iff. split.
    - intros [[I M] _]. split; [apply A in I; destruct I as [I|[]]; exact I|]. intros c Ic Id. destruct (v_pos c) eqn:P; [|reflexivity]. exfalso.
      assert (T : mem d conn = true) by (apply mem_in; apply B; left; exists c; auto). congruence.
    - intros [H1 H2]. split; [|reflexivity]. split; [apply A; left; exact H1|]. destruct (mem d conn) eqn:M; [|reflexivity].
      apply mem_in, B in M. destruct M as [(c & I & P & J)|[]]. specialize (H2 c I J). congruence. }
  destruct o.
  - destruct (add_rows_spec (fun _ => false) neg C1) as [C2 [E2 Z2]]. exists C2. split; [exact E2|].
    assert (D : forall d, (In d (filter (fun d => negb (mem d conn)) all) /\ (fun _ : nat => false) d = false) \/
      ~ (In d (filter (fun d => negb (mem d conn)) all) /\ (fun _ : nat => false) d = false)).
    { intros d. destruct (in_dec Nat.eq_dec d (filter (fun d => negb (mem d conn)) all)); [left; auto|right; tauto]. }
    apply (zeroed_ext (fun d => (In d (filter (fun d => negb (mem d conn)) all) /\ (fun _ : nat => false) d = false) \/ (In d neg /\ (fun _ : nat => false) d = false))).
    + intros d. rewrite V, N. cbn. intuition.
    + exact (zeroed_trans _ _ C C1 C2 D Z1 Z2).
  - exists C1. split; [reflexivity|]. apply (zeroed_ext (fun d => In d (filter (fun d => negb (mem d conn)) all) /\ (fun _ : nat => false) d = false)); [|exact Z1].
    intros d. rewrite V. intuition. discriminate.
Qed.

(** On one process: exactly the dofs whose elements all lie in the void, and with the option those of nodes that are not
    in the material in cut elements, get the value zero; other constraints stay; no exception is thrown. *)
Theorem C182_rows : forall o cells C, exists C', constrain o cells C = Ok C' /\
  zeroed (fun d => void_dof cells d \/ (o = true /\ low_dof cells d)) C C'.
Proof. exact constrain_spec. Qed.
(** Dofs of elements that have material keep their state without the option. *)
Theorem C182_material_kept : forall cells C C' c d, constrain false cells C = Ok C' -> In c cells -> In d (v_dofs c) -> v_pos c = true -> C' d = C d.
Proof.
  intros cells C C' c d E I J P. destruct (constrain_spec false cells C) as [C1 [E1 Z]]. rewrite E1 in E. inversion E; subst C1.
  destruct (Z d) as (Z1 & Z2 & Z3). destruct (C d) eqn:N; [apply Z1; discriminate|]. apply Z3; [reflexivity|].
  intros [[_ V]|[O _]]; [specialize (V c I J); congruence|discriminate].
Qed.
(** Applying the constraints again changes nothing. *)
Theorem C182_again : forall o cells C C', constrain o cells C = Ok C' ->
  exists C2, constrain o cells C' = Ok C2 /\ forall d, C2 d = C' d.
Proof.
  intros o cells C C' E. destruct (constrain_spec o cells C) as [C1 [E1 Z]]. rewrite E1 in E. inversion E; subst C1.
  destruct (constrain_spec o cells C') as [C2 [E2 Y]]. exists C2. split; [exact E2|]. intros d.
  destruct (Z d) as (Z1 & Z2 & Z3), (Y d) as (Y1 & Y2 & Y3).
  destruct (C' d) eqn:N; [apply Y1; discriminate|]. apply Y3; [reflexivity|].
  intros H. destruct (C d) eqn:Nd; [assert (K : None = Some l) by (apply Z1; discriminate); discriminate K|]. specialize (Z2 eq_refl H). discriminate Z2.
Qed.
(** The order in which the elements are visited is irrelevant. *)
Theorem C182_order : forall o cells cells' C C1 C2, Permutation cells cells' ->
  constrain o cells C = Ok C1 -> constrain o cells' C = Ok C2 -> forall d, C1 d = C2 d.
Proof.
  intros o cells cells' C C1 C2 P E1 E2 d.
  destruct (constrain_spec o cells C) as [D1 [F1 Z]]. rewrite F1 in E1. inversion E1; subst D1.
  destruct (constrain_spec o cells' C) as [D2 [F2 Y]]. rewrite F2 in E2. inversion E2; subst D2.
  assert (I : forall c, In c cells <-> In c cells') by (intros c; split; apply Permutation_in; [exact P|apply Permutation_sym; exact P]).
  assert (Q : (void_dof cells d \/ (o = true /\ low_dof cells d)) <-> (void_dof cells' d \/ (o = true /\ low_dof cells' d))).
  { unfold void_dof, low_dof. split; (intros [[(c & Ic & J) H]|[O (c & p & q & Ic & R)]]; [left; split; [exists c; split; [apply I; exact Ic|exact J]|intros c' I'; apply H; apply I; exact I']|right; split; [exact O|]; exists c, p, q; split; [apply I; exact Ic|exact R]]). }
  destruct (Z d) as (Z1 & Z2 & Z3), (Y d) as (Y1 & Y2 & Y3).
  destruct (C d) eqn:N; [rewrite Z1, Y1 by discriminate; reflexivity|].
  destruct (Classical_Prop.classic (void_dof cells d \/ (o = true /\ low_dof cells d))) as [H|H].
  - rewrite (Z2 eq_refl H). symmetry. apply Y2; [reflexivity|]. apply Q. exact H.
  - rewrite (Z3 eq_refl H). symmetry. apply Y3; [reflexivity|]. rewrite <- Q. exact H.
Qed.
(** The elements of a mesh distributed over processes: whatever one process has to switch off for the whole mesh, every
    process that has an element at the dof switches off, ... *)
Theorem C182_parallel_covers : forall o ranks C d, C d = None ->
  void_dof (concat ranks) d -> forall cells C', In cells ranks -> (exists c, In c cells /\ In d (v_dofs c)) ->
  constrain o cells C = Ok C' -> C' d = Some [].
Proof.
  intros o ranks C d N [_ V] cells C' I H E. destruct (constrain_spec o cells C) as [C1 [E1 Z]]. rewrite E1 in E. inversion E; subst C1.
  destruct (Z d) as (_ & Z2 & _). apply Z2; [exact N|]. left. split; [exact H|]. intros c Ic J. apply V; [|exact J].
  apply in_concat. exists cells. auto.
Qed.
(** ... and if every process sees all elements at the dofs of its elements, nothing else, ... *)
Theorem C182_parallel_partial : forall ranks C cells C' d, In cells ranks ->
  (forall d, (exists c, In c cells /\ In d (v_dofs c)) -> forall c, In c (concat ranks) -> In d (v_dofs c) -> In c cells) ->
  constrain false cells C = Ok C' -> C d = None -> C' d <> None -> void_dof (concat ranks) d.
Proof.
  intros ranks C cells C' d I H E N S. destruct (constrain_spec false cells C) as [C1 [E1 Z]]. rewrite E1 in E. inversion E; subst C1.
  destruct (Z d) as (_ & _ & Z3).
  assert (Q : ~ ~ void_dof cells d) by (intros Q; apply S; apply Z3; [exact N|]; intros [K|[O _]]; [auto|discriminate]).
  assert (Dec : (exists c, In c cells /\ In d (v_dofs c)) \/ ~ (exists c, In c cells /\ In d (v_dofs c))).
  { clear. induction cells as [|c cells IH]; [right; intros (c & [] & _)|]. destruct (in_dec Nat.eq_dec d (v_dofs c)); [left; exists c; split; [left; reflexivity|assumption]|].
    destruct IH as [(c' & J & K)|K]; [left; exists c'; split; [right; exact J|exact K]|right]. intros (c' & [<-|J] & L); [contradiction|]. apply K. exists c'. auto. }
  destruct Dec as [Ex|Ex]; [|exfalso; apply Q; intros [V _]; contradiction].
  split.
  - destruct Ex as (c & J & K). exists c. split; [apply in_concat; exists cells; auto|exact K].
  - intros c J K. pose proof (H d Ex c J K) as L. destruct (v_pos c) eqn:P; [|reflexivity]. exfalso. apply Q. intros [_ V]. specialize (V c L K). congruence.
Qed.
(** ... but a process sees only its own elements: at the border between two processes it clamps dofs that the material of
    the other process needs, so that the constraints depend on the partitioning. *)
Theorem C182_parallel_refuted : exists c1 c2 d C1 C, In d (v_dofs c2) /\ v_pos c2 = true /\
  constrain false [c1; c2] (fun _ => None) = Ok C /\ C d = None /\
  constrain false [c1] (fun _ => None) = Ok C1 /\ C1 d = Some [].
Proof.
  exists (mkVc [0; 1]%nat false false [] []), (mkVc [1; 2]%nat true false [] []), 1%nat.
  eexists. eexists. split; [left; reflexivity|]. split; [reflexivity|]. split; [reflexivity|]. split; [reflexivity|]. split; reflexivity.
Qed.
(** With the option a node that lies exactly on the boundary of the material is clamped as well, with all the elements of
    the material it carries. *)
Theorem C182_on_boundary_refuted : exists c d C, v_pos c = true /\ In d (v_dofs c) /\
  (forall phi ds, In (phi, ds) (v_nodes c) -> 0 <= phi) /\ constrain true [c] (fun _ => None) = Ok C /\ C d = Some [].
Proof.
  exists (mkVc [0; 1]%nat true true [(0, [0%nat]); (1, [1%nat])] []), 0%nat.
  destruct (constrain_spec true [mkVc [0; 1]%nat true true [(0, [0%nat]); (1, [1%nat])] []] (fun _ => None)) as [C [E Z]].
  exists C. split; [reflexivity|]. split; [left; reflexivity|]. split.
  - cbn. intros phi ds [H|[H|[]]]; inversion H; lra.
  - split; [exact E|]. destruct (Z 0%nat) as (_ & Z2 & _). apply Z2; [reflexivity|]. right. split; [reflexivity|].
    eexists; exists 0, [0%nat]. split; [left; reflexivity|]. cbn. split; [reflexivity|]. split; [left; reflexivity|]. split; [lra|left; reflexivity].
Qed.
(** an element in the void beside one with material, one dof of the void clamped beforehand *)
Example C182_witness : exists C, constrain true [mkVc [0; 1; 5]%nat false false [] []; mkVc [1; 2]%nat true true [(1, [1%nat]); (-1, [2%nat])] []]
    (fun d => if (d =? 5)%nat then Some [(7%nat, 1)] else None) = Ok C /\
  C 0%nat = Some [] /\ C 1%nat = None /\ C 2%nat = Some [] /\ C 3%nat = None /\ C 5%nat = Some [(7%nat, 1)].
Proof.
  destruct (constrain_spec true [mkVc [0; 1; 5]%nat false false [] []; mkVc [1; 2]%nat true true [(1, [1%nat]); (-1, [2%nat])] []] (fun d => if (d =? 5)%nat then Some [(7%nat, 1)] else None)) as [C [E Z]].
  exists C. split; [exact E|]. split; [|split; [|split; [|split]]].
  - apply (proj1 (proj2 (Z 0%nat))); [reflexivity|]. left. split; [eexists; split; [left; reflexivity|left; reflexivity]|].
    intros c [<-|[<-|[]]] J; [reflexivity|]. destruct J as [J|[J|[]]]; discriminate.
  - apply (proj2 (proj2 (Z 1%nat))); [reflexivity|]. intros [[_ V]|[_ (c & p & q & [<-|[<-|[]]] & Q & J & L & K)]].
    + specialize (V _ (or_intror (or_introl eq_refl)) (or_introl eq_refl)). discriminate.
    + discriminate.
    + cbn in J. destruct J as [J|[J|[]]]; inversion J; subst; [lra|]. destruct K as [K|[]]. discriminate.
  - apply (proj1 (proj2 (Z 2%nat))); [reflexivity|]. right. split; [reflexivity|]. eexists; exists (-1), [2%nat]. split; [right; left; reflexivity|].
    split; [reflexivity|]. split; [right; left; reflexivity|]. split; [lra|left; reflexivity].
  - apply (proj2 (proj2 (Z 3%nat))); [reflexivity|]. intros [[(c & [<-|[<-|[]]] & J) _]|[_ (c & p & q & [<-|[<-|[]]] & Q & J & L & K)]].
    + cbn in J. repeat destruct J as [J|J]; try discriminate; try contradiction.
    + cbn in J. repeat destruct J as [J|J]; try discriminate; try contradiction.
    + discriminate.
    + cbn in J. destruct J as [J|[J|[]]]; inversion J; subst; destruct K as [K|[]]; discriminate.
  - apply (proj1 (Z 5%nat)). discriminate.
Qed.

(** ** Indicator function *)
Lemma max_coeff_spec : forall v, v <> [] -> exists m, max_coeff v = Ok m /\ (forall t, t < m <-> exists a, In a v /\ t < a).
Proof.
  intros [|a v] N; [congruence|]. clear N. exists (fold_left Rmax v a). split; [reflexivity|]. revert a. induction v as [|b v IH]; intros a t; cbn.
  - split; [intros L; exists a; auto|intros (x & [<-|[]] & L); exact L].
  - rewrite IH. split.
    + intros (x & [<-|I] & L); [|exists x; auto]. unfold Rmax in L. destruct (Rle_dec a b); [exists b|exists a]; auto.
    + intros (x & [<-|[<-|I]] & L); [exists (Rmax a b)|exists (Rmax a b)|exists x]; split; auto; try (right; exact I); try (left; reflexivity).
      * eapply Rlt_le_trans; [exact L|apply Rmax_l].
      * eapply Rlt_le_trans; [exact L|apply Rmax_r].
Qed.
Lemma ind_loop_spec : forall cells con exc, (forall c, In c cells -> v_ind c <> []) ->
  exists con' exc', ind_loop cells (con, exc) = Ok (con', exc') /\
  (forall x, In x con' <-> (exists c, In c cells /\ In x (v_dofs c) /\ forall v, In v (v_ind c) -> v <= tol) \/ In x con) /\
  (forall x, In x exc' <-> (exists c v, In c cells /\ In x (v_dofs c) /\ v_cut c = true /\ In v (v_ind c) /\ tol < v) \/ In x exc).
Proof.
  induction cells as [|c cells IH]; intros con exc H.
  { exists con, exc. split; [reflexivity|]. split; intros x; split; auto; [intros [(c & [] & _)|J]|intros [(c & v & [] & _)|J]]; exact J. }
  cbn [ind_loop ind_step]. destruct (max_coeff_spec (v_ind c) (H c (or_introl eq_refl))) as (m & Em & Hm). rewrite Em. cbn [bind].
  destruct (IH (if rltb tol m then con else insert_all (v_dofs c) con) (if v_cut c && rltb tol m then insert_all (v_dofs c) exc else exc)
    (fun c' I => H c' (or_intror I))) as (con' & exc' & E & A & B).
  exists con', exc'. split; [exact E|]. split; intros x.
  - rewrite A. destruct (Rltb_spec tol m).
    + split; [intros [(c' & I & Q)|J]; [left; exists c'; split; [right; exact I|exact Q]|right; exact J]|].
      intros [(c' & [<-|I] & Jx & Q)|J]; [|left; exists c'; auto|right; exact J].
      apply Hm in r. destruct r as (a & Ia & La). specialize (Q a Ia). lra.
    + rewrite in_insert_all. split.
      * intros [(c' & I & Q)|[J|J]]; [left; exists c'; split; [right; exact I|exact Q]|left; exists c|right; exact J].
        split; [left; reflexivity|]. split; [exact J|]. intros v Iv. destruct (Rle_lt_dec v tol) as [L|L]; [exact L|].
        exfalso. assert (tol < m) by (apply Hm; exists v; auto). lra.
      * intros [(c' & [<-|I] & Jx & Q)|J]; [right; left; exact Jx|left; exists c'; auto|right; right; exact J].
  - rewrite B. destruct (v_cut c) eqn:Cut; cbn [andb]; [destruct (Rltb_spec tol m); [rewrite in_insert_all|]|]; split.
    + intros [(c' & v & I & Q)|[J|J]]; [left; exists c', v; split; [right; exact I|exact Q]| |right; exact J].
      apply Hm in r. destruct r as (a & Ia & La). left. exists c, a. split; [left; reflexivity|auto].
    + intros [(c' & v & [<-|I] & Jx & Q)|J]; [right; left; exact Jx|left; exists c', v; auto|right; right; exact J].
    + intros [(c' & v & I & Q)|J]; [left; exists c', v; split; [right; exact I|exact Q]|right; exact J].
    + intros [(c' & v & [<-|I] & Jx & Q)|J]; [|left; exists c', v; auto|right; exact J].
      exfalso. assert (tol < m) by (apply Hm; exists v; tauto). lra.
    + intros [(c' & v & I & Q)|J]; [left; exists c', v; split; [right; exact I|exact Q]|right; exact J].
    + intros [(c' & v & [<-|I] & Jx & Q)|J]; [destruct Q; congruence|left; exists c', v; auto|right; exact J].
Qed.
(** The level set constraints come first; then the dofs of elements without indicator, except those of cut elements with
    indicator, are switched off as well. *)
Theorem C183_rows : forall o cells C, (forall c, In c cells -> v_ind c <> []) -> exists C', constrain_indicator o cells C = Ok C' /\
  zeroed (fun d => void_dof cells d \/ (o = true /\ low_dof cells d) \/ silent_dof cells d) C C'.
Proof.
  intros o cells C H. unfold constrain_indicator. destruct (constrain_spec o cells C) as [C1 [E1 Z1]]. rewrite E1. cbn [bind].
  destruct (ind_loop_spec cells [] [] H) as (con & exc & E & A & B). rewrite E. cbn [bind].
  destruct (add_rows_spec (fun d => mem d exc) con C1) as [C2 [E2 Z2]]. exists C2. split; [exact E2|].
  assert (S : forall d, (In d con /\ mem d exc = false) <-> silent_dof cells d).
  { intros d. rewrite A. split.
    - intros [[Q|[]] M]. split; [exact Q|]. intros c v I J Cu Iv. destruct (Rle_lt_dec v tol) as [L|L]; [exact L|].
      exfalso. assert (T : mem d exc = true) by (apply mem_in; apply B; left; exists c, v; auto). congruence.
    - intros [Q1 Q2]. split; [left; exact Q1|]. destruct (mem d exc) eqn:M; [|reflexivity]. apply mem_in, B in M.
      destruct M as [(c & v & I & J & Cu & Iv & L)|[]]. specialize (Q2 c v I J Cu Iv). lra. }
  (* the first set is decided by the rows that were added *)
  intros d. destruct (Z1 d) as (a1 & a2 & a3), (Z2 d) as (b1 & b2 & b3). split; [|split].
  - intros N. rewrite <- (a1 N). apply b1. rewrite a1; assumption.
  - intros N Q. destruct (C1 d) eqn:N1.
    + rewrite b1 by discriminate. destruct l; [reflexivity|]. exfalso.
      assert (K : ~ (void_dof cells d \/ o = true /\ low_dof cells d)) by (intros K; specialize (a2 N K); discriminate).
      specialize (a3 N K). discriminate.
    + apply b2; [reflexivity|]. apply S. destruct Q as [Q|[Q|Q]]; [exfalso|exfalso|exact Q]; [specialize (a2 N (or_introl Q))|specialize (a2 N (or_intror Q))]; discriminate.
  - intros N Q. apply b3; [apply a3; [exact N|]|]; [intros [K|K]; apply Q; auto|]. intros K. apply Q. right. right. apply S. exact K.
Qed.
(** Cut elements that have indicator keep their dofs, unless the level set has switched them off. *)
Theorem C183_cut_kept : forall cells C C' c v d, (forall c, In c cells -> v_ind c <> []) -> constrain_indicator false cells C = Ok C' ->
  In c cells -> In d (v_dofs c) -> v_pos c = true -> v_cut c = true -> In v (v_ind c) -> tol < v -> C' d = C d.
Proof.
  intros cells C C' c v d H E I J P Cu Iv L. destruct (C183_rows false cells C H) as [C1 [E1 Z]]. rewrite E1 in E. inversion E; subst C1.
  destruct (Z d) as (Z1 & Z2 & Z3). destruct (C d) eqn:N; [apply Z1; discriminate|]. apply Z3; [reflexivity|].
  intros [[_ V]|[[O _]|[_ S]]]; [specialize (V c I J); congruence|discriminate|]. specialize (S c v I J Cu Iv). lra.
Qed.
(** The negation that the rows leave open is not needed: an element of nothing but zeros is switched off except at dofs
    it shares with cut elements that have indicator. *)
Theorem C183_silent : forall o cells C C' d, (forall c, In c cells -> v_ind c <> []) -> constrain_indicator o cells C = Ok C' ->
  silent_dof cells d -> C d = None -> C' d = Some [].
Proof.
  intros o cells C C' d H E S N. destruct (C183_rows o cells C H) as [C1 [E1 Z]]. rewrite E1 in E. inversion E; subst C1.
  apply (proj1 (proj2 (Z d))); auto.
Qed.
(** An element that is not cut and has indicator does not protect its dofs: they are switched off when a neighbour has
    none. *)
Theorem C183_uncut_refuted : exists c1 c2 d C, In d (v_dofs c2) /\ v_pos c2 = true /\ (exists v, In v (v_ind c2) /\ tol < v) /\
  constrain_indicator false [c1; c2] (fun _ => None) = Ok C /\ C d = Some [].
Proof.
  assert (T : 0 < tol < 1) by (unfold tol; lra).
  exists (mkVc [0; 1]%nat true false [] [0; 0]), (mkVc [1; 2]%nat true false [] [0; 1]), 1%nat.
  destruct (C183_rows false [mkVc [0; 1]%nat true false [] [0; 0]; mkVc [1; 2]%nat true false [] [0; 1]] (fun _ => None)) as [C [E Z]].
  { intros c [<-|[<-|[]]]; discriminate. }
  exists C. split; [left; reflexivity|]. split; [reflexivity|]. split; [exists 1; split; [right; left; reflexivity|lra]|]. split; [exact E|].
  apply (proj1 (proj2 (Z 1%nat))); [reflexivity|]. right. right. split.
  - eexists. split; [left; reflexivity|]. split; [right; left; reflexivity|]. intros v [<-|[<-|[]]]; lra.
  - intros c v [<-|[<-|[]]] _ Cu; discriminate.
Qed.
(** The partitioning matters here too. *)
Theorem C183_parallel_refuted : exists c1 c2 d C1 C, In d (v_dofs c2) /\ v_pos c1 = true /\ v_pos c2 = true /\ v_cut c2 = true /\
  constrain_indicator false [c1; c2] (fun _ => None) = Ok C /\ C d = None /\
  constrain_indicator false [c1] (fun _ => None) = Ok C1 /\ C1 d = Some [].
Proof.
  assert (T : 0 < tol < 1) by (unfold tol; lra).
  exists (mkVc [0; 1]%nat true false [] [0; 0]), (mkVc [1; 2]%nat true true [] [0; 1]), 1%nat.
  destruct (C183_rows false [mkVc [0; 1]%nat true false [] [0; 0]; mkVc [1; 2]%nat true true [] [0; 1]] (fun _ => None)) as [C [E Z]].
  { intros c [<-|[<-|[]]]; discriminate. }
  destruct (C183_rows false [mkVc [0; 1]%nat true false [] [0; 0]] (fun _ => None)) as [C1 [E1 Z1]].
  { intros c [<-|[]]; discriminate. }
  exists C1, C. split; [left; reflexivity|]. split; [reflexivity|]. split; [reflexivity|]. split; [reflexivity|]. split; [exact E|]. split; [|split; [exact E1|]].
  - apply (proj2 (proj2 (Z 1%nat))); [reflexivity|]. intros [[_ V]|[[O _]|[_ S]]]; [|discriminate|].
    + specialize (V _ (or_introl eq_refl) (or_intror (or_introl eq_refl))). discriminate.
    + specialize (S _ 1 (or_intror (or_introl eq_refl)) (or_introl eq_refl) eq_refl (or_intror (or_introl eq_refl))). lra.
  - apply (proj1 (proj2 (Z1 1%nat))); [reflexivity|]. right. right. split.
    + eexists. split; [left; reflexivity|]. split; [right; left; reflexivity|]. intros v [<-|[<-|[]]]; lra.
    + intros c v [<-|[]] _ Cu; discriminate.
Qed.
Example C183_witness : exists c, v_ind c <> [] /\ silent_dof [c] 1 /\ ~ void_dof [c] 1.
Proof.
  assert (T : 0 < tol) by (unfold tol; lra).
  exists (mkVc [0; 1]%nat true false [] [0; 0]). split; [discriminate|]. split; [split|].
  - eexists. split; [left; reflexivity|]. split; [right; left; reflexivity|]. intros v [<-|[<-|[]]]; lra.
  - intros c v [<-|[]] _ Cu; discriminate.
  - intros [_ V]. specialize (V _ (or_introl eq_refl) (or_intror (or_introl eq_refl))). discriminate.
Qed.
Print Assumptions C182_rows.
Print Assumptions C182_order.
Print Assumptions C183_rows.
