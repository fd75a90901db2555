(** Proofs about the material cards: the functions handed out, dependence, temperature. *)
From Coquelicot Require Import Coquelicot.
From Coq Require Import List Arith Bool Reals Lra Lia.
From Verif Require Import Base RBool Mat_Model Mat_Spec Mat_Proofs Mat_Proofs2.
Import ListNotations.
Open Scope R_scope.

Lemma slot_eqb_eq a b : slot_eqb a b = true <-> a = b.
Proof.
  destruct a, b; cbn; split; intros H; try discriminate; try (inversion H; fail); auto; try (apply Nat.eqb_eq in H; subst; auto);
  try (inversion H; subst; apply Nat.eqb_refl).
Qed.
Lemma slot_eqb_refl a : slot_eqb a a = true.
Proof. apply slot_eqb_eq. auto. Qed.
Lemma slot_eqb_neq a b : a <> b -> slot_eqb a b = false.
Proof. intros H. destruct (slot_eqb a b) eqn:E; auto. apply slot_eqb_eq in E. contradiction. Qed.
Definition slot_of (k : fkind) : slot :=
  match k with
  | KStiff1 => SStiff 1 | KStiff2 _ => SStiff 2 | KStiff3 => SStiff 3 | KInertia3 => SInertia3 | KShear => SShear
  | KExp n => SExp n | KCap n => SCap n | KCond n => SCond n
  end.
Lemma dim_cases d : dim_ok d = true -> d = 1%nat \/ d = 2%nat \/ d = 3%nat.
Proof. unfold dim_ok. destruct d as [|[|[|[|d]]]]; cbn; auto; discriminate. Qed.
Lemma plan_slot r s k : plan r = Ok (s, k) -> slot_of k = s /\ In s slots_all /\ kind_asked r = Some k.
Proof.
  destruct r as [d ps|d|d|d| |d|d]; cbn [plan kind_asked].
  - destruct d as [|[|[|[|d]]]]; intros H; try discriminate; inversion H; subst; cbn; auto 20.
  - discriminate.
  - destruct (Nat.eqb_spec d 3) as [->|]; intros H; [|discriminate]. inversion H; subst; cbn; auto 20.
  - destruct (dim_ok d) eqn:E; intros H; [|discriminate]. inversion H; subst.
    destruct (dim_cases _ E) as [->|[->| ->]]; cbn; auto 20.
  - intros H. inversion H; subst; cbn; auto 20.
  - destruct (dim_ok d) eqn:E; intros H; [|discriminate]. inversion H; subst.
    destruct (dim_cases _ E) as [->|[->| ->]]; cbn; auto 20.
  - destruct (dim_ok d) eqn:E; intros H; [|discriminate]. inversion H; subst.
    destruct (dim_cases _ E) as [->|[->| ->]]; cbn; auto 20.
Qed.
Lemma plan_none r f : plan r = Fault f -> kind_asked r = None.
Proof.
  destruct r as [d ps|d|d|d| |d|d]; cbn [plan kind_asked]; auto; try discriminate.
  - destruct d as [|[|[|[|d]]]]; intros H; try discriminate; auto.
  - destruct d as [|[|[|[|d]]]]; cbn; intros H; try discriminate; auto.
  - destruct (dim_ok d); [discriminate|auto].
  - destruct (dim_ok d); [discriminate|auto].
  - destruct (dim_ok d); [discriminate|auto].
Qed.

(** The state of a card. *)
Record inv (c : card) : Prop := {
  i_addr : forall s f, lookup s (c_slots c) = Some f -> (f_addr f < c_next c)%nat;
  i_kind : forall s f, lookup s (c_slots c) = Some f -> slot_of (f_kind f) = s /\ In s slots_all;
  i_inj : forall s s' f f', lookup s (c_slots c) = Some f -> lookup s' (c_slots c) = Some f' -> f_addr f = f_addr f' -> s = s' }.
Lemma inv_new has b : inv (new_card has b).
Proof. split; cbn; discriminate. Qed.
Lemma ask_inv M c r f c' : inv c -> ask M c r = Ok (f, c') ->
  inv c' /\ c_has c' = c_has c /\
  exists s k, plan r = Ok (s, k) /\ lookup s (c_slots c') = Some f /\
    (forall s' g, lookup s' (c_slots c) = Some g -> lookup s' (c_slots c') = Some g) /\
    (forall s' g, lookup s' (c_slots c') = Some g -> lookup s' (c_slots c) = Some g \/ (s' = s /\ g = f /\ f_kind f = k)).
Proof.
  intros I. unfold ask. destruct (plan r) as [[s k]|] eqn:P; cbn [bind]; [|discriminate].
  destruct (plan_slot _ _ _ P) as (Ps & Pin & Pk).
  destruct (lookup s (c_slots c)) as [g|] eqn:L.
  - intros H. inversion H; subst. split; [auto|]. split; [auto|]. exists (slot_of k), k. repeat split; auto.
  - unfold assert_. destruct (forallb _ _); [|discriminate]. cbv zeta. intros H. inversion H; subst; clear H.
    split; [|split; [reflexivity|]].
    + split; cbn [c_slots c_next lookup].
      * intros s f Hf. destruct (slot_eqb s (slot_of k)); [inversion Hf; subst; cbn; lia|]. pose proof (i_addr c I _ _ Hf). lia.
      * intros s f Hf. destruct (slot_eqb s (slot_of k)) eqn:Q; [|apply (i_kind c I); auto].
        apply slot_eqb_eq in Q. inversion Hf; subst. cbn. auto.
      * intros s s' f f' Hf Hf' E. destruct (slot_eqb s (slot_of k)) eqn:Q; destruct (slot_eqb s' (slot_of k)) eqn:Q'.
        -- apply slot_eqb_eq in Q, Q'. congruence.
        -- inversion Hf; subst. pose proof (i_addr c I _ _ Hf'). cbn in E. lia.
        -- inversion Hf'; subst. pose proof (i_addr c I _ _ Hf). cbn in E. lia.
        -- eapply (i_inj c I); eauto.
    + exists (slot_of k), k. split; [auto|]. cbn [c_slots lookup]. rewrite slot_eqb_refl. split; [auto|]. split.
      * intros s' g Hg. rewrite slot_eqb_neq; auto. intros ->. congruence.
      * intros s' g Hg. destruct (slot_eqb s' (slot_of k)) eqn:Q; [|auto]. apply slot_eqb_eq in Q. inversion Hg; subst. auto.
Qed.
Lemma flags_plan r ps : plan r = Ok (SStiff 2, KStiff2 ps) -> forall l, flags (r :: l) = ps :: flags l.
Proof.
  destruct r as [d q|d|d|d| |d|d]; cbn [plan]; try discriminate.
  - destruct d as [|[|[|[|d]]]]; intros H l; try discriminate. inversion H; subst; reflexivity.
  - destruct (Nat.eqb d 3); discriminate.
  - destruct (dim_ok d); discriminate.
  - destruct (dim_ok d); discriminate.
  - destruct (dim_ok d); discriminate.
Qed.
Lemma flags_cons r l ps : In ps (flags l) -> In ps (flags (r :: l)).
Proof. intros H. destruct r; cbn; auto. destruct dim as [|[|[|[|d]]]]; cbn; auto. Qed.
(** What a history leaves behind. *)
Record after (M : material) (c c' : card) (l : list request) (tr : list (request * outcome fobj)) : Prop := {
  a_inv : inv c';
  a_has : c_has c' = c_has c;
  a_keep : forall s f, lookup s (c_slots c) = Some f -> lookup s (c_slots c') = Some f;
  a_ok : forall r f, In (r, Ok f) tr -> exists s k, plan r = Ok (s, k) /\ lookup s (c_slots c') = Some f;
  a_in : forall r o, In (r, o) tr -> In r l;
  a_fault : forall r x, In (r, Fault x) tr -> kind_asked r = None \/ exists k p, kind_asked r = Some k /\ In p (needs M k) /\ c_has c p = false;
  a_new : forall s f, lookup s (c_slots c') = Some f -> lookup s (c_slots c) = Some f \/ exists r, In (r, Ok f) tr;
  a_flag : forall f ps, lookup (SStiff 2) (c_slots c') = Some f -> f_kind f = KStiff2 ps -> lookup (SStiff 2) (c_slots c) = Some f \/ In ps (flags l) }.
Lemma asks_after M l : forall c tr c', inv c -> asks M c l = (tr, c') -> after M c c' l tr.
Proof.
  induction l as [|r l IH]; cbn [asks]; intros c tr c' I H.
  - inversion H; subst. split; auto; try (cbn; contradiction).
  - destruct (ask M c r) as [[f c1]|x] eqn:A.
    + destruct (asks M c1 l) as [t e] eqn:B. inversion H; subst; clear H.
      destruct (ask_inv _ _ _ _ _ I A) as (I1 & Hh & s & k & P & L & K1 & K2).
      destruct (IH _ _ _ I1 B) as [J1 J2 J3 J4 J5 J6 J7 J8]. split; auto.
      * congruence.
      * intros r' f' [Q|Q]; [inversion Q; subst; eauto 8|]; eauto.
      * intros r' o [Q|Q]; [inversion Q; subst; cbn; auto|]. cbn. right. eapply J5; eauto.
      * intros r' x [Q|Q]; [discriminate|]. destruct (J6 _ _ Q) as [?|(k' & p & X1 & X2 & X3)]; [auto|]. right. exists k', p. rewrite <- Hh. auto.
      * intros s' g Hg. destruct (J7 _ _ Hg) as [Q|(r' & Q)].
        -- destruct (K2 _ _ Q) as [?|(-> & -> & Kf)]; [auto|]. right. exists r. cbn; auto.
        -- right. exists r'. cbn; auto.
      * intros g ps Hg Kg. destruct (J8 _ _ Hg Kg) as [Q|Q].
        -- destruct (K2 _ _ Q) as [?|(E1 & -> & Kf)]; [auto|]. right. subst s k. rewrite Kg in P. rewrite (flags_plan _ _ P). cbn; auto.
        -- right. apply flags_cons. auto.
    + destruct (asks M c l) as [t e] eqn:B. inversion H; subst; clear H.
      destruct (IH _ _ _ I B) as [J1 J2 J3 J4 J5 J6 J7 J8]. split; auto.
      * intros r' f' [Q|Q]; [discriminate|]; eauto.
      * intros r' o [Q|Q]; [inversion Q; subst; cbn; auto|]. cbn. right. eapply J5; eauto.
      * intros r' x' [Q|Q]; [|eauto]. inversion Q; subst; clear Q.
        unfold ask in A. destruct (plan r') as [[s k]|] eqn:P; cbn [bind] in A.
        -- right. destruct (plan_slot _ _ _ P) as (_ & _ & Pk). exists k.
           destruct (lookup s (c_slots c)); [discriminate|]. unfold assert_ in A.
           destruct (forallb (c_has c) (needs M k)) eqn:F; [discriminate|].
           assert (G : exists p, In p (needs M k) /\ c_has c p = false).
           { clear - F. induction (needs M k) as [|p q IHq]; cbn in F; [discriminate|].
             apply andb_false_iff in F. destruct F as [F|F]; [exists p; cbn; auto|]. destruct (IHq F) as (p' & ? & ?). exists p'; cbn; auto. }
           destruct G as (p & ? & ?). exists p. auto.
        -- left. eapply plan_none; eauto.
      * intros s' g Hg. destruct (J7 _ _ Hg) as [Q|(r' & Q)]; [auto|]. right. exists r'. cbn; auto.
      * intros g ps Hg Kg. destruct (J8 _ _ Hg Kg) as [Q|Q]; [auto|]. right. apply flags_cons. auto.
Qed.
Lemma plan_same r r' s k k' : plan r = Ok (s, k) -> plan r' = Ok (s, k') -> same_quantity r r'.
Proof.
  destruct r as [d q|d|d|d| |d|d], r' as [d' q'|d'|d'|d'| |d'|d']; cbn [plan same_quantity]; try discriminate;
  repeat match goal with
  | |- context [match ?x with 0%nat => _ | S _ => _ end] => destruct x
  | |- context [Nat.eqb ?x 3] => destruct (Nat.eqb_spec x 3)
  | |- context [if ?b then _ else _] => destruct b
  end; intros H1 H2; try discriminate; inversion H1; subst; inversion H2; subst; auto.
Qed.
Lemma same_plan r r' s k s' k' : plan r = Ok (s, k) -> plan r' = Ok (s', k') -> same_quantity r r' -> s = s'.
Proof.
  destruct r as [d q|d|d|d| |d|d], r' as [d' q'|d'|d'|d'| |d'|d']; cbn [plan same_quantity]; try discriminate;
  repeat match goal with
  | |- context [match ?x with 0%nat => _ | S _ => _ end] => destruct x
  | |- context [Nat.eqb ?x 3] => destruct (Nat.eqb_spec x 3)
  | |- context [if ?b then _ else _] => destruct b
  end; intros H1 H2 E; try discriminate; inversion H1; subst; inversion H2; subst; auto; try discriminate; try (inversion E; subst; auto).
Qed.
Lemma NoDup_flat (c : card) (l : list slot) : inv c -> NoDup l ->
  NoDup (flat_map (fun s => match lookup s (c_slots c) with Some f => [f_addr f] | None => [] end) l).
Proof.
  intros I. induction 1 as [|s l Hn Hd IH]; cbn [flat_map]; [constructor|].
  destruct (lookup s (c_slots c)) as [f|] eqn:L; cbn [app]; auto. constructor; auto.
  intros Q. apply in_flat_map in Q. destruct Q as (s' & Hs' & Q). destruct (lookup s' (c_slots c)) as [f'|] eqn:L'; [|contradiction].
  destruct Q as [Q|[]]. assert (s = s') by (eapply (i_inj c I); eauto). subst. contradiction.
Qed.
Lemma slots_nodup : NoDup slots_all.
Proof.
  unfold slots_all. repeat (constructor; [cbn; intuition discriminate|]). constructor.
Qed.

(** ** Dependence *)
Lemma iso_dep k v w : (forall x, In x (iso_reg k) -> v x = w x) -> iso_val k v = iso_val k w.
Proof.
  destruct k; cbn [iso_reg iso_needs iso_val]; intros H;
  unfold iso_K1, iso_K2, iso_K3, inertia3, iso_shear, iso_exp, cap, iso_cond;
  repeat (match goal with |- context [v ?x] => rewrite (H x) by (cbn; tauto) end); reflexivity.
Qed.
Lemma map_W_ext n (g : nat -> pname) (h : nat -> nat * nat) v w :
  (forall i, In i (seq 0 n) -> v (g i) = w (g i)) ->
  map (fun i => W (fst (h i)) (snd (h i)) (v (g i))) (seq 0 n) = map (fun i => W (fst (h i)) (snd (h i)) (w (g i))) (seq 0 n).
Proof. intros H. apply map_ext_in. intros i Hi. rewrite H; auto. Qed.
Lemma ort_dep k v w : k <> KStiff2 false -> (forall x, In x (ort_reg k) -> v x = w x) -> ort_val k v = ort_val k w.
Proof.
  destruct k as [|ps| | | |n|n|n]; cbn [ort_reg ort_needs ort_val]; intros Hk H.
  - unfold ort_K1. rewrite !(H _) by (cbn; tauto). reflexivity.
  - destruct ps; [|congruence]. unfold ort_K2. rewrite (H E11_), (H E22_), (H nu12_), (H G12_) by (cbn; tauto). reflexivity.
  - unfold ort_K3, ort_block, ort_D, nu21, nu13, nu32.
    rewrite (H E11_), (H E22_), (H E33_), (H nu12_), (H nu23_), (H nu31_), (H G12_), (H G13_), (H G23_) by (cbn; tauto). reflexivity.
  - unfold inertia3. rewrite !(H _) by (cbn; tauto). reflexivity.
  - unfold ort_shear. rewrite !(H _) by (cbn; tauto). reflexivity.
  - unfold ort_exp. rewrite (map_ext_in _ (fun i => W i 0 (w (alpha_of i)))); [reflexivity|].
    intros i Hi. rewrite H; auto. apply in_map. auto.
  - unfold cap. rewrite !(H _) by (cbn; tauto). reflexivity.
  - unfold ort_cond. rewrite (map_ext_in _ (fun i => W i i (w (k_of i)))); [reflexivity|].
    intros i Hi. rewrite H; auto. apply in_map. auto.
Qed.
