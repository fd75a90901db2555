From Coq Require Import List Arith NArith ZArith Lia Bool Reals Lra.
From Verif Require Import Base BaseLemmas RBool Filt_Model Filt_Proofs2 Isec_Model Isec_Spec Isec_Proofs Isec_Proofs2 Isec_Proofs3 Isec_Proofs4 Isec_Proofs5 Isec_Props Refi_Model Refi_Spec Refi_Proofs Refi_Proofs2.
Import ListNotations.
Open Scope nat_scope.

(** ** Shape of the pieces of a cut element *)
Definition vert_ok (n : nat) (v : vertex) : Prop := match v with Old k => k < 4 | Made j => j < n end.
Record shape (r : result) : Prop := {
  sh_pos : exists j t, r_pos r = Some j :: t;
  sh_neg : exists j t, r_neg r = Some j :: t;
  sh_some : forall p, In p (r_pos r ++ r_neg r) -> exists j sb, p = Some j /\ nth_error (r_subs r) j = Some sb;
  sh_vert : forall sb v, In sb (r_subs r) -> In v (s_vert sb) -> vert_ok (length (r_made r)) v;
  sh_len : forall sb, In sb (r_subs r) -> length (s_vert sb) = 3 \/ length (s_vert sb) = 4 }.
Lemma cut_shape phi e sd mxe mxn r m rs rn l : cut phi e sd mxe mxn r m rs rn l -> shape r.
Proof.
  intros C. pose proof (c_in _ _ _ _ _ _ _ _ _ _ C) as IN. pose proof (c_subs _ _ _ _ _ _ _ _ _ _ C) as SB.
  pose proof (c_rsubs _ _ _ _ _ _ _ _ _ _ C) as RS. pose proof (c_lists _ _ _ _ _ _ _ _ _ _ C) as L. cbv zeta in L.
  destruct L as (L1 & L2). pose proof (c_made _ _ _ _ _ _ _ _ _ _ C) as MD.
  assert (LEN : length (r_made r) = length (made_of e (xi_of phi e) mxn m rs)) by (rewrite MD; auto).
  set (b := isP _) in *. clearbody b. clear C MD. 
  cases IN; cbn in SB; injection SB as <-;
   (split;
    [ destruct b; rewrite L1; cbn; eauto
    | destruct b; rewrite L2; cbn; eauto
    | intros p Hp; rewrite L1, L2 in Hp; rewrite RS; destruct b; cbn in Hp;
      repeat (destruct Hp as [<-|Hp]; [eexists _, _; split; reflexivity|]); destruct Hp
    | intros sb v Hs Hv; rewrite RS in Hs; rewrite LEN; cbn in Hs;
      repeat (destruct Hs as [<-|Hs]; [cbn in Hv; repeat (destruct Hv as [<-|Hv]; [cbn; lia|]); destruct Hv|]); destruct Hs
    | intros sb Hs; rewrite RS in Hs; cbn in Hs;
      repeat (destruct Hs as [<-|Hs]; [cbn; auto|]); destruct Hs ]).
Qed.
Lemma through_shape phi e mxe mxn r : init phi e mxe mxn = Ok r -> through (r_mode r) = true -> shape r.
Proof.
  intros H T. destruct (init_inv _ _ _ _ _ H) as [M ? ? ? ? ? ? ? ? ?|M ? ? ? ? ? ? ? ? ?|M ? ? ? ? ? ? ? ? ?|m rs rn l C ? ?].
  - rewrite M in T; discriminate.
  - rewrite M in T; discriminate.
  - destruct M as [M|M]; rewrite M in T; discriminate.
  - eapply cut_shape; eauto.
Qed.

(** ** The intersection does not depend on the numbering, except for the ids it hands out *)
Definition mview (nd : made) := (m_pt nd, m_bound nd, m_loc nd, m_hang nd).
Definition same_result (r r' : result) : Prop :=
  r_mode r = r_mode r' /\ r_onpos r = r_onpos r' /\ r_onneg r = r_onneg r' /\ r_pos r = r_pos r' /\ r_neg r = r_neg r' /\
  r_subs r = r_subs r' /\ r_subdom r = r_subdom r' /\ map mview (r_made r) = map mview (r_made r') /\
  r_node r = r_node r' /\ r_edge r = r_edge r'.
Lemma same_result_refl r : same_result r r.
Proof. repeat split; auto. Qed.
Lemma made_of_ids e xi m r a b : map mview (made_of e xi a m r) = map mview (made_of e xi b m r).
Proof. destruct m; reflexivity. Qed.
Lemma find_quad4_ids phi e sd a b a' b' r : find_quad4 phi e sd a b = Ok r ->
  exists r', find_quad4 phi e sd a' b' = Ok r' /\ same_result r r'.
Proof.
  unfold find_quad4. cbv zeta. destruct (find_mode _ _ _) as [[[m rs] rn]|]; [|discriminate]. cbn [bind].
  unfold assert_. destruct (through m); [|discriminate]. destruct (subs_of m rs rn) as [l|]; [|discriminate]. cbn [bind].
  destruct (length l <=? _); [|discriminate]. intros H; injection H as <-. eexists. split; [reflexivity|].
  repeat split; cbn [r_made]; auto. apply made_of_ids.
Qed.
Lemma init_ids phi e a b a' b' r : init phi e a b = Ok r -> exists r', init phi e a' b' = Ok r' /\ same_result r r'.
Proof.
  assert (G : forall sd, init_ref phi e sd a b = Ok r -> exists r', init_ref phi e sd a' b' = Ok r' /\ same_result r r').
  { intros sd. unfold init_ref. cbv zeta. set (s := scan_nodes _ _).
    assert (Q : forall x, @Ok result x = Ok r -> exists r', Ok x = Ok r' /\ same_result r r').
    { intros x H; injection H as ->. eexists; split; eauto. apply same_result_refl. }
    repeat match goal with
    | |- context [if ?b then _ else _] => destruct b; auto
    | |- context [match ?x with Some _ => _ | None => _ end] => destruct x; auto
    | |- context [assert_ ?b _] => unfold assert_
    end; try discriminate; apply find_quad4_ids. }
  unfold init. destruct (e_type e); auto. discriminate.
Qed.

Lemma npt_later s s' p : later s s' -> In p (map nd_ptr (ms_nodes (snd s))) -> npt (snd s') p = npt (snd s) p.
Proof.
  intros (L & _) H. destruct (find_exists nd_ptr _ _ H) as (n & F). unfold npt, find_node in *. 
  specialize (L p n F). rewrite F, L. auto.
Qed.
Lemma cell_elem_later s s' c : later s s' -> (forall p, In p (ce_conn c) -> In p (map nd_ptr (ms_nodes (snd s)))) ->
  cell_elem (snd s') c = cell_elem (snd s) c.
Proof.
  intros L H. unfold cell_elem. f_equal. apply FunctionalExtensionality.functional_extensionality. intros k.
  destruct (nth_error (ce_conn c) k) eqn:E; auto. apply (npt_later s s'); auto. apply H. eapply nth_error_In; eauto.
Qed.

(** ** Processing never fails when the intersections do not *)
Lemma find_node_in m p : In p (map nd_ptr (ms_nodes m)) -> exists n, find_node m p = Some n.
Proof. apply find_exists. Qed.
Lemma add_node_total x st pos b1 b2 r m : rf_init r = false -> mapok st r m ->
  In b1 (map nd_ptr (ms_nodes m)) -> In b2 (map nd_ptr (ms_nodes m)) ->
  exists p s', add_node x st pos b1 b2 (r, m) = Ok (p, s').
Proof.
  intros I M H1 H2. destruct (find_node_in _ _ H1) as (n1 & F1). destruct (find_node_in _ _ H2) as (n2 & F2).
  unfold add_node, assert_. rewrite I, F1, F2. cbn [negb]. cbv zeta. set (k := (_, _)). cbn [add_point].
  destruct st; cbn [negb].
  - destruct pos; [destruct (fst _)|destruct (snd _)]; eauto.
  - pose proof (k_weak _ _ _ M eq_refl k) as Wk. unfold get in Wk. rewrite Wk.
    destruct (snd (lookup (rf_map r) k)) as [q|]; eauto. rewrite Nat.eqb_refl. eauto.
Qed.

Definition sane (st : bool) (s : state) : Prop := rf_init (fst s) = false /\ mapok st (fst s) (snd s).
Lemma sane_steps st s s' : steps st s s' -> sane st s -> sane st s'.
Proof.
  induction 1; auto. intros (I & M). apply IHsteps. split; [|eapply mapok_step; eauto].
  destruct H; cbn in *; auto. destruct (add_node_old _ _ _ _ _ _ _ _ H) as (_ & B). congruence.
Qed.
Lemma nodes_later s s' p : later s s' -> In p (map nd_ptr (ms_nodes (snd s))) -> In p (map nd_ptr (ms_nodes (snd s'))).
Proof.
  intros (L & _) H. destruct (find_node_in _ _ H) as (n & F). apply L in F. apply find_some in F. destruct F as (A & <-).
  apply in_map. auto.
Qed.

Lemma child_nodes_total a c r pos vs : forall s, sane (a_strong a) s ->
  (forall p, In p (ce_conn c) -> In p (map nd_ptr (ms_nodes (snd s)))) -> 4 <= length (ce_conn c) ->
  (forall v, In v vs -> vert_ok (length (r_made r)) v) ->
  (forall nd, In nd (r_made r) -> fst (m_bound nd) < 4 /\ snd (m_bound nd) < 4) ->
  exists y, child_nodes a c r pos vs s = Ok y.
Proof.
  induction vs as [|[k|j] vs IH]; intros s S H L V B; cbn [child_nodes]; eauto.
  - assert (k < 4) by (apply (V (Old k)); left; auto).
    destruct (nth_error (ce_conn c) k) as [p|] eqn:E; [|apply nth_error_None in E; lia].
    destruct (IH s S H L) as (y & ->); auto. { intros v Hv. apply V. right; auto. } cbn. eauto.
  - assert (Hj : j < length (r_made r)) by (apply (V (Made j)); left; auto).
    destruct (nth_error (r_made r) j) as [nd|] eqn:E; [|apply nth_error_None in E; lia].
    destruct (B nd) as (B1 & B2); [eapply nth_error_In; eauto|].
    destruct (nth_error (ce_conn c) (fst _)) as [b1|] eqn:E1; [|apply nth_error_None in E1; lia].
    destruct (nth_error (ce_conn c) (snd _)) as [b2|] eqn:E2; [|apply nth_error_None in E2; lia].
    destruct s as [r0 m]. destruct S as (I & M).
    destruct (add_node_total (m_pt nd) (a_strong a) pos b1 b2 r0 m) as (p & s' & A); auto.
    { apply H. eapply nth_error_In; eauto. } { apply H. eapply nth_error_In; eauto. }
    rewrite A. cbn [bind fst snd].
    match goal with |- context [child_nodes a c r pos vs ?x] => set (s1 := x) end.
    assert (ST : steps (a_strong a) (r0, m) s1).
    { econstructor; [eapply st_node; eauto|]. unfold s1. destruct s'. destruct (m_hang nd); [apply ss_one; apply st_hang|constructor]. }
    destruct (IH s1) as (y & ->); auto.
    + eapply sane_steps; eauto. split; auto.
    + intros q Hq. eapply nodes_later; [eapply later_steps; eauto|]. auto.
    + intros v Hv. apply V. right; auto.
    + cbn. eauto.
Qed.
Lemma process_subs_total a c r pos l : forall s, sane (a_strong a) s ->
  (forall p, In p (ce_conn c) -> In p (map nd_ptr (ms_nodes (snd s)))) -> 4 <= length (ce_conn c) ->
  (forall p, In p l -> exists j sb, p = Some j /\ nth_error (r_subs r) j = Some sb) ->
  (forall sb v, In sb (r_subs r) -> In v (s_vert sb) -> vert_ok (length (r_made r)) v) ->
  (forall nd, In nd (r_made r) -> fst (m_bound nd) < 4 /\ snd (m_bound nd) < 4) ->
  exists s', process_subs a c r pos l s = Ok s'.
Proof.
  induction l as [|p l IH]; intros s S H L P V B; cbn [process_subs]; eauto.
  destruct (P p (or_introl eq_refl)) as (j & sb & -> & E). rewrite E.
  destruct (child_nodes_total a c r pos (s_vert sb) s S H L) as (y & Y); auto.
  { intros v Hv. eapply V; eauto. eapply nth_error_In; eauto. }
  rewrite Y. cbn [bind add_elem]. cbv zeta.
  destruct y as [conn [r1 m1]]. cbn [fst snd]. set (s2 := (with_elem _ _, _)).
  assert (ST : steps (a_strong a) s s2).
  { assert (Q : process_subs a c r pos [Some j] s = Ok s2) by (cbn [process_subs]; rewrite E, Y; reflexivity).
    eapply steps_subs; eauto. }
  apply IH; auto.
  - eapply sane_steps; eauto.
  - intros q Hq. eapply nodes_later; [eapply later_steps; eauto; apply S|]. auto.
  - intros q Hq. apply P. right; auto.
Qed.
Lemma copy_nodes_total sn conn : forall s, sane true s ->
  (forall p, In p conn -> In p (map nd_ptr (ms_nodes (snd s)))) -> exists y, copy_nodes sn conn s = Ok y.
Proof.
  induction conn as [|p t IH]; intros s S H; cbn [copy_nodes]; eauto.
  destruct (existsb _ _).
  - destruct s as [r m]. destruct S as (I & M).
    destruct (add_node_total (npt m p) true false p p r m) as (q & s' & A); auto; try (apply H; left; auto).
    cbn [snd] in *. rewrite A. cbn [bind fst snd].
    assert (ST : steps true (r, m) s') by (apply ss_one; eapply st_node; eauto).
    destruct (IH s') as (y & ->); [eapply sane_steps; eauto; split; auto| |cbn; eauto].
    intros z Hz. eapply nodes_later; [eapply later_steps; eauto|]. apply H. right; auto.
  - destruct (IH s S) as (y & ->); [intros; apply H; right; auto|]. cbn; eauto.
Qed.

Lemma process_cell_total a p s c r : sane (a_strong a) (fst s) ->
  find_cell (snd (fst s)) p = Some c -> length (ce_conn c) = size_of (ce_type c) ->
  (forall q, In q (ce_conn c) -> In q (map nd_ptr (ms_nodes (snd (fst s))))) ->
  init (a_phi a) (cell_elem (snd (fst s)) c) (max_elem_id (snd (fst s))) (max_node_id (snd (fst s))) = Ok r ->
  exists s', process_cell a p s = Ok s'.
Proof.
  intros S F L C I. unfold process_cell. rewrite F, I. cbn [bind].
  assert (L4 : 4 <= length (ce_conn c)).
  { rewrite L. destruct (ce_type c) eqn:T; cbn; try lia; unfold init in I; cbn in I; rewrite T in I; discriminate. }
  destruct (through (r_mode r)) eqn:T.
  - pose proof (through_shape _ _ _ _ _ I T) as [].
    assert (B : forall nd, In nd (r_made r) -> fst (m_bound nd) < 4 /\ snd (m_bound nd) < 4).
    { intros nd Hn. destruct (C48_nodes_made _ _ _ _ _ _ I Hn) as (x & _ & B1 & B2 & _). split; auto.
      rewrite B2. apply Nat.mod_upper_bound. lia. }
    destruct (process_subs_total a c r true (r_pos r) (fst s)) as (s1 & E1); auto.
    { intros q Hq. apply sh_some0. apply in_app_iff; auto. }
    rewrite E1. cbn [bind]. pose proof (steps_subs _ _ _ _ _ _ _ E1) as ST.
    destruct (process_subs_total a c r false (r_neg r) s1) as (s2 & E2); auto.
    { eapply sane_steps; eauto. }
    { intros q Hq. eapply nodes_later; [eapply later_steps; eauto; apply S|]. auto. }
    { intros q Hq. apply sh_some0. apply in_app_iff; auto. }
    rewrite E2. cbn [bind]. eauto.
  - destruct (touches r) eqn:TC.
    + destruct (a_strong a) eqn:SA; eauto. unfold process_negative.
      assert (SN : exists sn, side_nodes c r = Ok sn).
      { unfold side_nodes, touches in *. destruct (r_mode r); try discriminate; eauto. }
      destruct SN as (sn & ->). cbn [bind].
      destruct (copy_nodes_total sn (ce_conn c) (fst s)) as (y & ->); auto. cbn. eauto.
    + destruct (r_onneg r); eauto.
Qed.
