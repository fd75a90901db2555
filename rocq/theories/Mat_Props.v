(** Properties of the material cards. *)
From Coquelicot Require Import Coquelicot.
From Coq Require Import List Arith Bool Reals Lra Lia.
From Verif Require Import Base RBool Mat_Model Mat_Spec Mat_Proofs Mat_Proofs2 Mat_Proofs3 Mat_Proofs4 Mat_Proofs5 Mat_Proofs6.
Import ListNotations.
Open Scope R_scope.

(** ** C92: the stiffness matrices state Hooke's law *)
(** For every admissible isotropic material every stiffness matrix exists, relates exactly the stresses and strains
    of the three dimensional law under the assumptions of its kind (plane stress, plane strain, bar, transverse
    shear), and is symmetric and positive definite. *)
Theorem C92_isotropic_stiffness : forall v k, admissible_iso v -> is_stiffness k ->
  exists m, val_ isotropic k v = Ok m /\ elastic m (size_of k) /\
    forall e s, applies m (size_of k) e s <-> law_of k (hooke_iso v) e s.
Proof.
  intros v k A K.
  assert (Q : exists m, val_ isotropic k v = Ok m /\ rows m = size_of k /\ cols m = size_of k /\
    forall e s, applies m (size_of k) e s <-> law_of k (hooke_iso v) e s).
  { destruct k as [|[|]| | | | | |]; try contradiction; cbn [val_ isotropic iso_val size_of].
    - apply iso_K1_law; auto. - apply iso_K2s_law; auto. - apply iso_K2e_law; auto. - apply iso_K3_law; auto. - apply iso_shear_law; auto. }
  destruct Q as (m & Q1 & Q2 & Q3 & Q4). exists m. split; [auto|]. split; [|auto].
  apply elastic_of_law with (H := hooke_iso v); auto using iso_reciprocal, iso_work_pos.
Qed.
(** The same for every admissible orthotropic material, except the transverse shear matrix. *)
Theorem C92_orthotropic_stiffness_partial : forall v k, admissible_ort v -> is_stiffness k ->
  (k = KShear -> v G13_ = v G12_ /\ v G23_ = v G12_) ->
  exists m, val_ orthotropic k v = Ok m /\ elastic m (size_of k) /\
    forall e s, applies m (size_of k) e s <-> law_of k (hooke_ort v) e s.
Proof.
  intros v k A K G.
  assert (Q : exists m, val_ orthotropic k v = Ok m /\ rows m = size_of k /\ cols m = size_of k /\
    forall e s, applies m (size_of k) e s <-> law_of k (hooke_ort v) e s).
  { destruct k as [|[|]| | | | | |]; try contradiction; cbn [val_ orthotropic ort_val size_of].
    - apply ort_K1_law; auto. - apply ort_K2s_law; auto. - apply ort_K2e_law; auto. - apply ort_K3_law; auto.
    - destruct (G eq_refl). apply ort_shear_law; auto. }
  destruct Q as (m & Q1 & Q2 & Q3 & Q4). exists m. split; [auto|]. split; [|auto].
  apply elastic_of_law with (H := hooke_ort v); auto using ort_reciprocal, ort_work_pos.
Qed.
Definition ply : props := fun x => match x with
  | E11_ => 10 | E22_ => 2 | E33_ => 2 | nu12_ => 1 / 4 | nu23_ => 1 / 4 | nu31_ => 1 / 20 | G12_ => 3 | G13_ => 3 | G23_ => 1 | alpha11_ => 1 | alpha22_ => 2 | alpha33_ => 2 | _ => 1 end.
Lemma ply_adm : admissible_ort ply.
Proof. unfold admissible_ort, ply. repeat split; lra. Qed.
(** With another modulus in the 2-3 plane than in the 1-2 plane it is not the law of the material. *)
Theorem C92_orthotropic_shear_refuted : exists v, admissible_ort v /\
  exists m, val_ orthotropic KShear v = Ok m /\ ~ (forall e s, applies m 2 e s <-> law_of KShear (hooke_ort v) e s).
Proof.
  exists ply. split; [apply ply_adm|]. eexists. split; [cbn; reflexivity|]. intros H.
  specialize (H (fun _ => 1) (fun _ => 3)). cbn [law_of] in H. destruct H as [H _].
  assert (A : hooke_ort ply (shears (fun _ => 1)) (shears (fun _ => 3))).
  { apply H. intros i Hi. idx2 i; cbn; unfold upd2; cbn; lra. }
  destruct A as (_ & _ & _ & _ & A & _). cbn in A. lra.
Qed.
(** Steel-like and ply-like values are admissible. *)
Definition steel : props := fun x => match x with nu_ => 1 / 4 | _ => 1 end.
Lemma steel_adm : admissible_iso steel.
Proof. unfold admissible_iso, steel. lra. Qed.
Example C92_example : admissible_iso steel /\ admissible_ort ply /\ is_stiffness (KStiff2 false).
Proof. split; [apply steel_adm|]. split; [apply ply_adm|exact I]. Qed.

(** The other kinds: momentum, stored heat and heat flux. *)
Theorem C92_mass_and_heat : forall v n, (1 <= n <= 3)%nat ->
  exists I H Ki Ko, val_ isotropic KInertia3 v = Ok I /\ val_ orthotropic KInertia3 v = Ok I /\
    val_ isotropic (KCap n) v = Ok H /\ val_ orthotropic (KCap n) v = Ok H /\ val_ isotropic (KCond n) v = Ok Ki /\ val_ orthotropic (KCond n) v = Ok Ko /\
    rows I = 3%nat /\ cols I = 3%nat /\ rows H = 1%nat /\ cols H = 1%nat /\ rows Ki = n /\ cols Ki = n /\ rows Ko = n /\ cols Ko = n /\
    (forall u p, applies I 3 u p <-> forall i, (i < 3)%nat -> p i = v rho_ * u i) /\ ent H 0%nat 0%nat = v rho_ * v cp_ /\
    (forall g q, applies Ki n g q <-> forall i, (i < n)%nat -> q i = v k_ * g i) /\
    (forall g q, applies Ko n g q <-> forall i, (i < n)%nat -> q i = v (nth i [k11_; k22_; k33_] k33_) * g i).
Proof.
  intros v n Hn. cbn [val_ isotropic orthotropic iso_val ort_val]. unfold inertia3, cap, iso_cond, ort_cond.
  assert (n = 1 \/ n = 2 \/ n = 3)%nat as [-> | [-> | ->]] by lia; cbn [diag map seq k_of]; mkred;
  do 4 eexists; do 6 (split; [reflexivity|]); do 8 (split; [reflexivity|]); unfold applies; cbn [ent sum mscl ident rows cols];
  (split; [intros x y; split; intros HH i Hi; specialize (HH i Hi); idx3 i; cbn in HH |- *; unfold upd2 in *; cbn in HH |- *; lra|]);
  (split; [cbn; unfold upd2; cbn; ring|]);
  (split; intros x y; split; intros HH i Hi; specialize (HH i Hi); first [destruct i as [|i]; [|exfalso; lia] | idx2 i | idx3 i]; cbn in HH |- *; unfold upd2 in *; cbn in HH |- *; lra).
Qed.
Print Assumptions C92_mass_and_heat.
(** ** C93: derivative() is the derivative of operator() *)
(** The kinds a card can hand out. *)
Definition offered (k : fkind) : Prop := exists r, kind_asked r = Some k.
Lemma offered_dim k : offered k -> match k with KExp n | KCap n | KCond n => dim_ok n = true | _ => True end.
Proof.
  intros (r & H). destruct r as [d ps|d|d|d| |d|d]; cbn [kind_asked] in H; try discriminate.
  - destruct d as [|[|[|[|d]]]]; try discriminate; inversion H; subst; exact I.
  - destruct d as [|[|[|[|d]]]]; try discriminate; inversion H; subst; exact I.
  - destruct (dim_ok d) eqn:E; [|discriminate]. inversion H; subst; exact E.
  - inversion H; subst; exact I.
  - destruct (dim_ok d) eqn:E; [|discriminate]. inversion H; subst; exact E.
  - destruct (dim_ok d) eqn:E; [|discriminate]. inversion H; subst; exact E.
Qed.
(** For every path of property values through a point where the matrix exists. *)
Theorem C93_isotropic_derivative_partial : forall k P t d m, offered k -> k <> KShear ->
  path_deriv P t d -> val_ isotropic k (at_ P t) = Ok m ->
  mat_deriv (fun s => val_ isotropic k (at_ P s)) t (der_ isotropic k (at_ P t) d).
Proof.
  intros k P t d m O K D V. pose proof (offered_dim k O) as Hn.
  destruct k as [|[|]| | | |n|n|n]; try congruence; cbn [val_ der_ isotropic iso_val iso_der] in *.
  - apply guard_inv in V. destruct V as [V _]. inversion V; subst. apply iso_K1_deriv; auto.
  - apply guard_inv in V. destruct V as [V _]. inversion V; subst. apply iso_K2s_deriv; auto.
  - apply guard_inv in V. destruct V as [V _]. inversion V; subst. apply iso_K2e_deriv; auto.
  - apply guard_inv in V. destruct V as [V _]. inversion V; subst. apply iso_K3_deriv; auto.
  - apply inertia3_deriv; auto.
  - apply iso_exp_deriv; auto.
  - apply cap_deriv; auto.
  - apply iso_cond_deriv; auto.
Qed.
Theorem C93_orthotropic_derivative_partial : forall k P t d m, offered k -> (forall ps, k <> KStiff2 ps) ->
  path_deriv P t d -> val_ orthotropic k (at_ P t) = Ok m ->
  mat_deriv (fun s => val_ orthotropic k (at_ P s)) t (der_ orthotropic k (at_ P t) d).
Proof.
  intros k P t d m O K D V. pose proof (offered_dim k O) as Hn.
  destruct k as [|ps| | | |n|n|n]; cbn [val_ der_ orthotropic ort_val ort_der] in *.
  - apply ort_K1_deriv; auto.
  - destruct (K ps eq_refl).
  - unfold ort_K3 in V. apply guard_inv in V. destruct V as [V _]. inversion V as [|? ? a1 V1]; subst.
    inversion V1 as [|? ? a2 V2]; subst. inversion V2 as [|? ? a3 V3]; subst. inversion V3; subst. apply ort_K3_deriv; auto.
  - apply inertia3_deriv; auto.
  - apply ort_shear_deriv; auto.
  - apply ort_exp_deriv; auto.
  - apply cap_deriv; auto.
  - apply ort_cond_deriv; auto.
Qed.
(** The transverse shear stiffness of an isotropic material reports the derivative zero whatever varies. *)
Theorem C93_isotropic_shear_refuted : exists P t d m, path_deriv P t d /\ val_ isotropic KShear (at_ P t) = Ok m /\
  ~ mat_deriv (fun s => val_ isotropic KShear (at_ P s)) t (der_ isotropic KShear (at_ P t) d).
Proof.
  exists (fun x s => match x with E_ => s | _ => 0 end), 1, (fun x => match x with E_ => 1 | _ => 0 end).
  eexists. split; [|split].
  - intros x. destruct x; try (apply @is_derive_const). apply @is_derive_id.
  - cbn [val_ isotropic iso_val]. unfold iso_shear, at_. cbv zeta. rewrite guard_ok by (nz; lra). mkred. reflexivity.
  - intros (d & E & _ & H). cbn [der_ isotropic iso_der] in E. unfold iso_shear_d, at_ in E. cbv zeta in E. rewrite guard_ok in E by (nz; lra).
    cbn [bind] in E. revert E. mkred. cbn [bind]. intros E. inversion E; subst; clear E.
    specialize (H 0%nat 0%nat). cbn [rows cols ent upds] in H. specialize (H ltac:(lia) ltac:(lia)).
    apply is_derive_unique in H.
    assert (Z : Derive (fun s => s / 2) 1 = 0).
    { rewrite <- H. apply Derive_ext. intros s. cbn [val_ isotropic iso_val]. unfold iso_shear, at_. cbv zeta. rewrite guard_ok by (nz; lra). mkred. unfold upds, W; cbn. field. }
    rewrite (is_derive_unique _ _ (/ 2)) in Z; [lra|]. auto_derive; auto; field.
Qed.
(** The two dimensional stiffness of an orthotropic material has no derivative at all: every call fails. *)
Theorem C93_orthotropic_plane_refuted : forall ps v d, exists f, der_ orthotropic (KStiff2 ps) v d = Fault f.
Proof.
  intros ps v d. destruct (der_ orthotropic (KStiff2 ps) v d) as [m|f] eqn:E; [|eexists; reflexivity]. exfalso.
  destruct ps; cbn [der_ orthotropic ort_der] in E; unfold ort_K2_d in E; cbv zeta in E; [|discriminate].
  apply guard_inv in E. destruct E as [_ E]. apply guard_inv in E. destruct E as [_ E].
  revert E. mkred. cbn. discriminate.
Qed.
Definition steel_path : path := fun x s => match x with E_ => s | nu_ => s / 8 | _ => 1 end.
Example C93_example : offered (KStiff2 false) /\ path_deriv steel_path 2 (fun x => match x with E_ => 1 | nu_ => 1 / 8 | _ => 0 end) /\
  exists m, val_ isotropic (KStiff2 false) (at_ steel_path 2) = Ok m.
Proof.
  split; [exists (RStiffness 2 false); reflexivity|]. split.
  - intros x. destruct x; try (apply @is_derive_const); [apply @is_derive_id|]. unfold steel_path. auto_derive; auto; field.
  - cbn [val_ isotropic iso_val]. unfold iso_K2, at_, steel_path. cbv zeta. rewrite guard_ok by (nz; lra). mkred. eexists; reflexivity.
Qed.

(** ** C94: what a card hands out, over every history of requests *)
(** The function returned is of the kind asked for. *)
Theorem C94_kind_partial : forall M has base h tr c r f, asks M (new_card has base) h = (tr, c) ->
  all_same (flags h) -> handed tr r f -> kind_asked r = Some (f_kind f).
Proof.
  intros M has base h tr c r f H S0 Hf. destruct (asks_after _ _ _ _ _ (inv_new has base) H) as [J1 J2 J3 J4 J5 J6 J7 J8].
  destruct (J4 _ _ Hf) as (s & k & P & L). destruct (plan_slot _ _ _ P) as (Ps & _ & Pk). rewrite Pk. f_equal.
  destruct (i_kind _ J1 _ _ L) as [Q _].
  assert (Hr := J5 _ _ Hf).
  destruct k, (f_kind f) eqn:Ek; cbn [slot_of] in *; subst s; try discriminate; try congruence.
  assert (In plane_stress (flags h)).
  { clear - P Hr. induction h as [|r' h IH]; [contradiction|]. destruct Hr as [->|Hr]; [rewrite (flags_plan _ _ P); cbn; auto|].
    apply flags_cons. auto. }
  destruct (J8 _ _ L Ek) as [X|X]; [discriminate|]. f_equal. apply S0; auto.
Qed.
(** A card asked for plane stress first goes on to hand out plane stress when asked for plane strain. *)
Theorem C94_kind_refuted : exists has base h tr c r f, asks isotropic (new_card has base) h = (tr, c) /\ handed tr r f /\
  kind_asked r <> Some (f_kind f).
Proof.
  exists (fun _ => true), 0%nat, [RStiffness 2 true; RStiffness 2 false]. do 2 eexists. exists (RStiffness 2 false), (mkF 0 (KStiff2 true)).
  split; [reflexivity|]. split; [unfold handed; cbn; auto|]. discriminate.
Qed.
(** The same quantity is the same object every time, and different quantities are different objects. *)
Theorem C94_identity : forall M has base h tr c r f r' f', asks M (new_card has base) h = (tr, c) ->
  handed tr r f -> handed tr r' f' -> (f_addr f = f_addr f' <-> same_quantity r r').
Proof.
  intros M has base h tr c r f r' f' H Hf Hf'. destruct (asks_after _ _ _ _ _ (inv_new has base) H) as [J1 J2 J3 J4 J5 J6 J7 J8].
  destruct (J4 _ _ Hf) as (s & k & P & L). destruct (J4 _ _ Hf') as (s' & k' & P' & L'). split.
  - intros E. assert (s = s') by (eapply (i_inj _ J1); eauto). subst. eapply plan_same; eauto.
  - intros E. assert (s = s') by (eapply same_plan; eauto). subst. congruence.
Qed.
(** Every request has an answer, and a request is refused only if the interface has no such quantity or a property
    it needs was not given to the card. *)
Theorem C94_refusal : forall M has base h tr c, asks M (new_card has base) h = (tr, c) ->
  map fst tr = h /\
  forall r x, In (r, Fault x) tr -> kind_asked r = None \/ exists k p, kind_asked r = Some k /\ In p (needs M k) /\ has p = false.
Proof.
  intros M has base h tr c H. split; [|apply (a_fault _ _ _ _ _ (asks_after _ _ _ _ _ (inv_new has base) H))].
  revert H. generalize (new_card has base). revert tr c. induction h as [|r h IH]; cbn [asks]; intros tr c c0 H; [inversion H; auto|].
  destruct (ask M c0 r) as [[f c1]|x].
  - destruct (asks M c1 h) eqn:E. inversion H; subst. cbn. f_equal. eauto.
  - destruct (asks M c0 h) eqn:E. inversion H; subst. cbn. f_equal. eauto.
Qed.
(** A request whose properties are all there is answered. *)
Theorem C94_answered : forall M has base h tr c r x, asks M (new_card has base) h = (tr, c) ->
  (forall k p, kind_asked r = Some k -> In p (needs M k) -> has p = true) -> In (r, Fault x) tr -> kind_asked r = None.
Proof.
  intros M has base h tr c r x H Hp Hx. destruct (a_fault _ _ _ _ _ (asks_after _ _ _ _ _ (inv_new has base) H) _ _ Hx) as [?|(k & p & K1 & K2 & K3)]; auto.
  cbn [c_has new_card] in K3. rewrite (Hp _ _ K1 K2) in K3. discriminate.
Qed.
(** The destructor deletes every object handed out, nothing else, and each once. *)
Theorem C94_destroyed_once : forall M has base h tr c, asks M (new_card has base) h = (tr, c) ->
  NoDup (destroy c) /\ forall a, In a (destroy c) <-> exists r f, handed tr r f /\ f_addr f = a.
Proof.
  intros M has base h tr c H. destruct (asks_after _ _ _ _ _ (inv_new has base) H) as [J1 J2 J3 J4 J5 J6 J7 J8]. split.
  - apply NoDup_flat; auto using slots_nodup.
  - intros a. unfold destroy. rewrite in_flat_map. split.
    + intros (s & Hs & Q). destruct (lookup s (c_slots c)) as [f|] eqn:L; [|contradiction]. destruct Q as [Q|[]].
      destruct (J7 _ _ L) as [X|(r & X)]; [discriminate|]. exists r, f. auto.
    + intros (r & f & Hf & E). destruct (J4 _ _ Hf) as (s & k & P & L). exists s. split; [apply (i_kind _ J1 _ _ L)|].
      rewrite L. cbn; auto.
Qed.
Example C94_example : exists tr c, asks orthotropic (new_card (fun x => match x with rho_ => false | _ => true end) 7)
    [RStiffness 2 false; RExpansion 3; RStiffness 2 false; RInertia 3; RDamping 1; RStiffness 3 true] = (tr, c) /\
  handed tr (RStiffness 2 false) (mkF 7 (KStiff2 false)) /\ In (RInertia 3, Fault AssertFailed) tr /\ destroy c = [7; 9; 8]%nat /\
  all_same (flags [RStiffness 2 false; RExpansion 3; RStiffness 2 false; RInertia 3; RDamping 1; RStiffness 3 true]).
Proof.
  do 2 eexists. split; [reflexivity|]. repeat split; cbn; auto 10. intros a b; cbn. intuition congruence.
Qed.

(** ** C95: depends_on covers what the value depends on *)
(** Changing anything but the registered properties changes nothing. *)
Theorem C95_isotropic_dependence : forall k v w, (forall x, In x (reg isotropic k) -> v x = w x) -> val_ isotropic k v = val_ isotropic k w.
Proof. intros. apply iso_dep; auto. Qed.
Theorem C95_orthotropic_dependence_partial : forall k v w, k <> KStiff2 false ->
  (forall x, In x (reg orthotropic k) -> v x = w x) -> val_ orthotropic k v = val_ orthotropic k w.
Proof. intros. apply ort_dep; auto. Qed.
(** Plane strain depends on the modulus along 33, which is not registered. *)
Theorem C95_orthotropic_dependence_refuted : exists v w, admissible_ort v /\ admissible_ort w /\
  (forall x, In x (reg orthotropic (KStiff2 false)) -> v x = w x) /\
  val_ orthotropic (KStiff2 false) v <> val_ orthotropic (KStiff2 false) w.
Proof.
  pose (w := fun x => match x with E33_ => 4 | _ => ply x end).
  assert (A : admissible_ort w) by (unfold admissible_ort, w, ply; repeat split; lra).
  exists ply, w. split; [apply ply_adm|]. split; [auto|]. split.
  - intros x H. cbn in H. destruct H as [<-|[<-|[<-|[<-|[]]]]]; reflexivity.
  - cbn [val_ orthotropic ort_val]. unfold ort_K2. cbv zeta. rewrite !guard_ok.
    2,3,4,5: nz; unfold ort_den, w, ply; lra.
    mkred. intros E.
    assert (E0 := f_equal (fun o => match o with Ok m => ent m 0%nat 0%nat | Fault _ => 0 end) E).
    cbn -[Rmult Rplus Rminus Rdiv Rinv] in E0. unfold W in E0. cbn -[Rmult Rplus Rminus Rdiv Rinv ort_den] in E0.
    unfold upd2 in E0. cbn -[Rmult Rplus Rminus Rdiv Rinv ort_den] in E0. unfold ort_den, w, ply in E0. lra.
Qed.
Example C95_example : exists v w : props, v nu12_ <> w nu12_ /\ (forall x, In x (reg orthotropic KStiff1) -> v x = w x).
Proof.
  exists ply, (fun x => match x with nu12_ => 0 | _ => ply x end). split; [unfold ply; lra|].
  intros x H. cbn in H. destruct H as [<-|[<-|[]]]; reflexivity.
Qed.

(** ** C96: temperature *)
(** Stiffness times (strain less expansion times temperature rise) is the stress of the heated body. *)
Theorem C96_heated_isotropic_partial : forall v k T, admissible_iso v -> In k [KStiff1; KStiff2 true; KStiff3] ->
  exists C a, val_ isotropic k v = Ok C /\ val_ isotropic (KExp (dim_of k)) v = Ok a /\ rows a = size_of k /\ cols a = 1%nat /\
    forall e s, heated_matrices C a (size_of k) T e s <-> law_of k (heated (hooke_iso v) (free_iso v) T) e s.
Proof.
  intros v k T A K. destruct (C92_isotropic_stiffness v k A) as (C & V & _ & L).
  { destruct K as [<-|[<-|[<-|[]]]]; exact I. }
  assert (F : forall i, (3 <= i)%nat -> free_iso v i = 0) by (intros [|[|[|i]]] Hi; try lia; reflexivity).
  destruct K as [<-|[<-|[<-|[]]]]; cbn [dim_of size_of] in *; exists C; unfold val_ at 2; cbn [isotropic iso_val]; unfold iso_exp;
    cbn [exp_rows seq map]; mkred; eexists; (split; [exact V|]); (split; [reflexivity|]); (split; [reflexivity|]); (split; [reflexivity|]);
    intros e s; rewrite heated_applies, L; (apply heated_law; [apply iso_ext6|exact F|]).
  - split; reflexivity.
  - repeat split; reflexivity.
  - intros i Hi. idx6 i; reflexivity.
Qed.
Theorem C96_heated_orthotropic_partial : forall v k T, admissible_ort v -> In k [KStiff1; KStiff2 true; KStiff3] ->
  exists C a, val_ orthotropic k v = Ok C /\ val_ orthotropic (KExp (dim_of k)) v = Ok a /\ rows a = size_of k /\ cols a = 1%nat /\
    forall e s, heated_matrices C a (size_of k) T e s <-> law_of k (heated (hooke_ort v) (free_ort v) T) e s.
Proof.
  intros v k T A K. destruct (C92_orthotropic_stiffness_partial v k A) as (C & V & _ & L).
  { destruct K as [<-|[<-|[<-|[]]]]; exact I. }
  { destruct K as [<-|[<-|[<-|[]]]]; discriminate. }
  assert (F : forall i, (3 <= i)%nat -> free_ort v i = 0) by (intros [|[|[|i]]] Hi; try lia; reflexivity).
  destruct K as [<-|[<-|[<-|[]]]]; cbn [dim_of size_of] in *; exists C; unfold val_ at 2; cbn [orthotropic ort_val]; unfold ort_exp;
    cbn [exp_rows seq map]; mkred; eexists; (split; [exact V|]); (split; [reflexivity|]); (split; [reflexivity|]); (split; [reflexivity|]);
    intros e s; rewrite heated_applies, L; (apply heated_law; [apply ort_ext6|exact F|]).
  - split; reflexivity.
  - repeat split; reflexivity.
  - intros i Hi. idx6 i; reflexivity.
Qed.
(** Plane strain: a clamped body heated by one degree is reported with too small a stress. *)
Theorem C96_plane_strain_refuted : exists v C a e s, admissible_iso v /\ val_ isotropic (KStiff2 false) v = Ok C /\
  val_ isotropic (KExp 2) v = Ok a /\ heated_matrices C a 3 1 e s /\
  ~ law_of (KStiff2 false) (heated (hooke_iso v) (free_iso v) 1) e s.
Proof.
  assert (G : val_ isotropic (KStiff2 false) steel = Ok (unok (val_ isotropic (KStiff2 false) steel))).
  { cbn [val_ isotropic iso_val]. unfold iso_K2. cbv zeta. rewrite guard_ok by (nz; unfold steel; lra). mkred. reflexivity. }
  exists steel, (unok (val_ isotropic (KStiff2 false) steel)), (unok (val_ isotropic (KExp 2) steel)), (fun _ => 0),
    (fun i => match i with 0%nat | 1%nat => - (8 / 5) | _ => 0 end).
  split; [apply steel_adm|]. split; [exact G|]. split; [reflexivity|]. split.
  - intros i Hi. cbn [val_ isotropic iso_val]. unfold iso_K2. cbv zeta. rewrite guard_ok by (nz; unfold steel; lra). mkred.
    idx3 i; cbn; unfold upds, upd2, W, steel; cbn; lra.
  - intros (s33 & H). unfold heated, hooke_iso in H. cbn in H. destruct H as (H0 & _ & H2 & _). unfold steel in *. lra.
Qed.

Print Assumptions C92_isotropic_stiffness.
Print Assumptions C92_orthotropic_stiffness_partial.
Print Assumptions C92_orthotropic_shear_refuted.
Print Assumptions C93_isotropic_derivative_partial.
Print Assumptions C93_orthotropic_derivative_partial.
Print Assumptions C93_isotropic_shear_refuted.
Print Assumptions C93_orthotropic_plane_refuted.
Print Assumptions C94_kind_partial.
Print Assumptions C94_kind_refuted.
Print Assumptions C94_identity.
Print Assumptions C94_refusal.
Print Assumptions C94_answered.
Print Assumptions C94_destroyed_once.
Print Assumptions C95_isotropic_dependence.
Print Assumptions C95_orthotropic_dependence_partial.
Print Assumptions C95_orthotropic_dependence_refuted.
Print Assumptions C96_heated_isotropic_partial.
Print Assumptions C96_heated_orthotropic_partial.
Print Assumptions C96_plane_strain_refuted.
