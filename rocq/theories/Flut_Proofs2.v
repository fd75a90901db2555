(** Lemmas for C25 (characterisation) and C28. *)
From Coq Require Import Reals List Arith Bool Lra Lia Permutation Sorted Classical.
From Verif Require Import Base BaseLemmas Flut_Model Flut_Spec Flut_Proofs.
Import ListNotations.
Open Scope R_scope.

Lemma in_init_exp i s0 t k x : In (k, x) (init_exp i (s0 :: t)) <->
  (tol < Rabs (ref_val s0) \/ exists s1 t', t = s1 :: t' /\ tol < Rabs (ref_val s1)) /\ 0 < g i s0 /\ k = vel i s0 /\ x = mkX s0 s0 i None.
Proof.
  unfold init_exp. split.
  - destruct (rlt_spec tol (Rabs (ref_val s0))); simpl.
    + destruct (rlt_spec 0 (g i s0)); simpl; [|tauto]. intros [E|[]]. inversion E; auto.
    + destruct t as [|s1 t']; simpl; [tauto|]. destruct (rlt_spec tol (Rabs (ref_val s1))); simpl; [|tauto].
      destruct (rlt_spec 0 (g i s0)); simpl; [|tauto]. intros [E|[]]. inversion E; subst. split; auto.
      right. eauto.
  - intros (H1 & H2 & -> & ->). destruct (rlt_spec 0 (g i s0)); [|lra].
    destruct (rlt_spec tol (Rabs (ref_val s0))); simpl; [auto|].
    destruct H1 as [|(s1 & t' & -> & H1)]; [lra|]. destruct (rlt_spec tol (Rabs (ref_val s1))); [|lra]. simpl. auto.
Qed.

Lemma identify_iff m xs : identify_crossover_points m = Ok xs ->
  exists s0 t, map snd m = s0 :: t /\ sroots s0 <> [] /\ keys_sorted xs /\
  forall k x, In (k, x) xs <->
    exists i, (i < length (sroots s0))%nat /\ retained (map snd m) i /\
      ((exists a b, consecutive (map snd m) a b /\ fast a b /\ crossing i a b k x) \/
       ((tol < Rabs (ref_val s0) \/ exists s1 t', t = s1 :: t' /\ tol < Rabs (ref_val s1)) /\
        0 < g i s0 /\ k = vel i s0 /\ x = mkX s0 s0 i None)).
Proof.
  intros Hid. destruct (identify_perm _ _ Hid) as (s0 & t & negs & El & Hn & Hneg & S & P).
  exists s0, t. split; [auto|]. split; [auto|]. split; [auto|]. intros k x.
  assert (Hin : In (k, x) xs <-> In (k, x) (flat_map (fun i => mode_exp (nth i negs false) i (map snd m)) (seq 0 (length (sroots s0))))).
  { split; apply Permutation_in; auto. now symmetry. }
  rewrite Hin, in_flat_map. clear Hin. split.
  - intros (i & Hi & Hin). apply in_seq in Hi. exists i. split; [lia|].
    assert (Hr := neglect_spec _ _ _ (Hneg i ltac:(lia))).
    unfold mode_exp in Hin. destruct (nth i negs false); [destruct Hin|]. split.
    + apply NNPP. intros X. apply Hr in X. discriminate.
    + apply in_app_or in Hin. destruct Hin as [Hin|Hin]; [left; now apply in_pairs_exp|right].
      rewrite El in Hin. now apply in_init_exp in Hin.
  - intros (i & Hi & Hret & H). exists i. split; [apply in_seq; lia|].
    assert (Hr := neglect_spec _ _ _ (Hneg i ltac:(lia))). unfold mode_exp.
    destruct (nth i negs false). { destruct Hr as (Hr & _). exfalso. apply Hr; auto. }
    apply in_or_app. destruct H as [H|H]; [left; now apply in_pairs_exp|right].
    rewrite El. now apply in_init_exp.
Qed.

Lemma identify_nodup m xs : identify_crossover_points m = Ok xs -> NoDup (map ref_val (map snd m)) -> NoDup (map snd xs).
Proof.
  intros Hid Hnd. destruct (identify_perm _ _ Hid) as (s0 & t & negs & El & Hn & Hneg & S & P).
  apply (Permutation_map snd) in P. eapply Permutation_NoDup; [symmetry; exact P|].
  rewrite flat_map_concat_map, concat_map, map_map, <- flat_map_concat_map.
  assert (Hnum : forall i x, In x (map snd (mode_exp (nth i negs false) i (map snd m))) -> x_num x = i).
  { intros i x Hx. unfold mode_exp in Hx. destruct (nth i negs false); [destruct Hx|].
    apply in_map_iff in Hx. destruct Hx as ([k x'] & E & Hx). simpl in E. subst x'. apply in_app_or in Hx. destruct Hx as [Hx|Hx].
    - apply in_pairs_exp in Hx. destruct Hx as (a & b & _ & _ & [(_ & _ & ->)|(_ & _ & ->)]); auto.
    - rewrite El in Hx. apply in_init_exp in Hx. destruct Hx as (_ & _ & _ & ->). auto. }
  apply NoDup_flat_map.
  - apply seq_NoDup.
  - intros i _. unfold mode_exp. destruct (nth i negs false); [constructor|]. rewrite map_app. apply NoDup_app_intro.
    + apply nodup_pairs. auto.
    + rewrite El. unfold init_exp. destruct (_ && _); repeat constructor; auto.
    + intros x H1 H2. apply in_map_iff in H1, H2. destruct H1 as ([k x1] & E1 & H1), H2 as ([k' x2] & E2 & H2). simpl in *; subst x1 x2.
      rewrite El in H2. apply in_init_exp in H2. destruct H2 as (_ & _ & _ & ->).
      apply in_pairs_exp in H1. destruct H1 as (a & b & Hc & _ & C). apply consecutive_neq in Hc; auto.
      destruct C as [(_ & _ & E)|(_ & _ & E)]; inversion E; subst; auto.
  - intros a a' b _ _ Hb Hb'. apply Hnum in Hb, Hb'. congruence.
Qed.

(** totality *)
Lemma get_root_some n s i : length (sroots s) = n -> (i < n)%nat -> exists r, get_root s i = Ok r.
Proof.
  intros L Hi. unfold get_root. destruct (nth_error (sroots s) i) eqn:E; eauto. apply nth_error_None in E. lia.
Qed.
Lemma max_vals_total n i l : (i < n)%nat -> Forall (fun s => length (sroots s) = n) l -> forall a b, exists r, max_vals i l a b = Ok r.
Proof.
  intros Hi. induction 1 as [|s l Hs _ IH]; intros a b; simpl; [eauto|].
  destruct (get_root_some n s i Hs Hi) as (r & ->). simpl. apply IH.
Qed.
Lemma process_pairs_total n i neg l : (i < n)%nat -> Forall (fun s => length (sroots s) = n) l -> forall xs, exists r, process_pairs neg i l xs = Ok r.
Proof.
  intros Hi. induction 1 as [|s l Hs Hl IH]; intros xs; simpl; [eauto|]. destruct l as [|b l]; [eauto|].
  unfold process. destruct (_ && _); simpl bind.
  - destruct (get_root_some n s i Hs Hi) as (r & ->). simpl. inversion Hl as [|? ? Hb Hl']. destruct (get_root_some n b i Hb Hi) as (r' & ->). simpl. apply IH.
  - apply IH.
Qed.
Lemma identify_total m n s0 s1 t : map snd m = s0 :: s1 :: t -> (0 < n)%nat -> Forall (fun s => length (sroots s) = n) (map snd m) ->
  exists xs, identify_crossover_points m = Ok xs.
Proof.
  intros El Hn HF. unfold identify_crossover_points. rewrite El in *.
  assert (L0 : length (sroots s0) = n) by (inversion HF; auto). rewrite L0. unfold assert_.
  destruct (Nat.eqb_spec n 0); [lia|]. simpl negb. cbv iota.
  assert (T : forall B (f : nat -> B -> outcome B), (forall i b, (i < n)%nat -> exists r, f i b = Ok r) -> forall k b, (k <= n)%nat -> exists r, loop k f b = Ok r).
  { intros B f Hf. induction k as [|k IH]; intros b Hk; simpl; [eauto|]. destruct (IH b ltac:(lia)) as (r & ->). simpl. apply Hf. lia. }
  destruct (T _ (fun i acc => b <- neglect (s0 :: s1 :: t) i ;; Ok (acc ++ [b])) ltac:(intros i b Hi; unfold neglect; destruct (max_vals_total n i _ Hi HF 0 (- big)) as (r & ->); simpl; eauto) n [] ltac:(lia)) as (negs & ->).
  cbn [bind]. apply T; [|lia]. intros i xs Hi. cbv beta zeta.
  destruct (process_pairs_total n i (nth i negs false) _ Hi HF xs) as (x1 & ->). simpl bind.
  unfold process_initial. destruct (get_root_some n s0 i L0 Hi) as (r & E).
  destruct (rlt tol (Rabs (ref_val s0))); simpl bind; rewrite E; simpl; eauto.
Qed.

(** ** C28: order of the crossovers *)
Lemma up_before i (l1 : list fsol) : forall a s0 t l2, l1 ++ a :: l2 = s0 :: t -> g i s0 <= 0 -> 0 < g i a ->
  exists c d, consecutive (l1 ++ [a]) c d /\ g i c <= 0 < g i d.
Proof.
  induction l1 as [|p l1 IH] using rev_ind; intros a s0 t l2 E H0 Ha.
  - simpl in E. inversion E; subst. lra.
  - destruct (Rle_dec (g i p) 0) as [Hp|Hp].
    + exists p, a. split; [|lra]. exists l1, []. rewrite <- app_assoc. reflexivity.
    + destruct (IH p s0 t (a :: l2)) as (c & d & (m1 & m2 & Em) & Hcd); auto.
      * rewrite <- app_assoc in E. exact E.
      * lra.
      * exists c, d. split; auto. exists m1, (m2 ++ [a]). rewrite Em, <- app_assoc. reflexivity.
Qed.
Lemma sorted_app_le (l1 : list fsol) a l2 d : StronglySorted Rlt (map ref_val (l1 ++ a :: l2)) -> In d (l1 ++ [a]) ->
  ref_val d <= ref_val a.
Proof.
  intros S H. induction l1 as [|p l1 IH]; simpl in *.
  - destruct H as [->|[]]. lra.
  - apply StronglySorted_inv in S. destruct S as (S & F). destruct H as [->|H]; auto.
    rewrite Forall_forall in F. left. apply F. apply in_map. apply in_or_app. right. now left.
Qed.
Lemma sorted_consecutive (l : list fsol) a b : StronglySorted Rlt (map ref_val l) -> consecutive l a b -> ref_val a < ref_val b.
Proof.
  intros S (l1 & l2 & ->). rewrite map_app in S. simpl in S. induction l1; simpl in S; apply StronglySorted_inv in S; destruct S as (S & F); auto.
  inversion F; auto.
Qed.
Lemma sorted_nodup (l : list R) : StronglySorted Rlt l -> NoDup l.
Proof.
  induction 1; constructor; auto. intros Hin. rewrite Forall_forall in H0. specialize (H0 _ Hin). lra.
Qed.

Definition is_up (x : xover) : Prop := ref_val (x_first x) < ref_val (x_second x).
Section D.
  Variables (m : smap) (n : nat) (xs0 : xmap).
  Let l := map snd m.
  Hypothesis Hgood : Forall (good_sol n) l.
  Hypothesis Hsorted : StronglySorted Rlt (map ref_val l).
  Hypothesis Hfast : forall a b, consecutive l a b -> fast a b.
  Hypothesis Hid : identify_crossover_points m = Ok xs0.
  Hypothesis Hstable : forall s0 t i, l = s0 :: t -> (i < n)%nat -> retained l i -> g i s0 <= 0.

  Lemma vel_ref i s : (i < n)%nat -> In s l -> vel i s = ref_val s.
  Proof.
    intros Hi Hs. rewrite Forall_forall in Hgood. destruct (Hgood s Hs) as (L & F). unfold vel.
    destruct (nth_error (sroots s) i) eqn:E.
    - rewrite Forall_forall in F. apply F. eapply nth_error_In; eauto.
    - apply nth_error_None in E. lia.
  Qed.

  Lemma entries k x : In (k, x) xs0 <->
    exists i a b, (i < n)%nat /\ retained l i /\ consecutive l a b /\ crossing i a b k x.
  Proof.
    destruct (identify_iff _ _ Hid) as (s0 & t & El & _ & _ & H). fold l in El, H.
    assert (Ln : length (sroots s0) = n).
    { rewrite Forall_forall in Hgood. apply Hgood. rewrite El. now left. }
    rewrite Ln in H. rewrite H. split.
    - intros (i & Hi & Hret & [(a & b & Hc & _ & C)|(_ & Hpos & _)]).
      + exists i, a, b. auto.
      + assert (G0 := Hstable s0 t i El Hi Hret). lra.
    - intros (i & a & b & Hi & Hr & Hc & C). exists i. split; [auto|]. split; [auto|]. left. exists a, b. auto.
  Qed.
  Lemma xs0_sign : Forall sign_ok (map core xs0).
  Proof.
    apply Forall_forall. intros c Hc. apply in_map_iff in Hc. destruct Hc as ([k x] & <- & Hin).
    apply entries in Hin. destruct Hin as (i & a & b & _ & _ & _ & [(Hg & _ & ->)|(Hg & _ & ->)]); unfold sign_ok, core; simpl; auto.
  Qed.
  Lemma xs0_inv : inv xs0 xs0.
  Proof.
    destruct (identify_iff _ _ Hid) as (s0 & t & El & _ & S & _).
    split; [reflexivity|]. split; [exact S|]. apply Forall_forall. intros [k x] Hin. apply entries in Hin.
    destruct Hin as (i & a & b & Hi & _ & Hc & C). apply consecutive_in in Hc.
    unfold entry_ok. destruct C as [(Hg & -> & ->)|(Hg & -> & ->)]; simpl; apply vel_ref; tauto.
  Qed.
  (** a crossover into stability follows one of the same mode out of it *)
  Lemma partner k x : In (k, x) xs0 -> is_up x \/
    exists k' y, In (k', y) xs0 /\ is_up y /\ hi y <= lo x.
  Proof.
    intros Hin. apply entries in Hin. destruct Hin as (i & a & b & Hi & Hr & Hc & C).
    assert (Hab := sorted_consecutive _ _ _ Hsorted Hc).
    destruct C as [(Hg & Ek & ->)|(Hg & Ek & ->)]; [left; exact Hab|right].
    destruct Hc as (l1 & l2 & El). assert (Hne : exists s0 t, l = s0 :: t) by (rewrite El; destruct l1; simpl; eauto).
    destruct Hne as (s0 & t & E0).
    destruct (up_before i l1 a s0 t (b :: l2)) as (c & d & (m1 & m2 & Em) & Hcd); [congruence| | |].
    { apply (Hstable s0 t); auto. } { lra. }
    assert (Hcl : consecutive l c d).
    { exists m1, (m2 ++ b :: l2). rewrite El. replace (l1 ++ a :: b :: l2) with ((l1 ++ [a]) ++ b :: l2) by (rewrite <- app_assoc; reflexivity).
      rewrite Em, <- app_assoc. reflexivity. }
    exists (vel i c), (mkX c d i None). split.
    - apply entries. exists i, c, d. split; [auto|]. split; [auto|]. split; [auto|]. left. auto.
    - assert (Hcd' := sorted_consecutive _ _ _ Hsorted Hcl). split; [exact Hcd'|].
      unfold hi, lo. simpl. rewrite Rmax_right by lra. rewrite Rmin_right by lra.
      rewrite El in Hsorted. apply (sorted_app_le l1 a (b :: l2)); auto. rewrite Em. apply in_or_app. right. simpl; auto.
  Qed.

  (** every root already found is at or above k, every open crossover lies above k *)
  Definition low (k : R) (xs : xmap) : Prop :=
    Forall (fun e => match x_root (snd e) with Some r => k <= r_V r | None => k <= lo (snd e) end) xs.
  Lemma core_ext e e' : core e = core e' -> lo (snd e) = lo (snd e') /\ hi (snd e) = hi (snd e') /\ (is_up (snd e) <-> is_up (snd e')).
  Proof. unfold core, lo, hi, is_up. intros E. inversion E as [[E1 E2 E3]]. rewrite E1, E2. tauto. Qed.
  Lemma up_key xs e k : inv xs0 xs -> (forall e', In e' xs -> k <= fst e') -> In e xs -> is_up (snd e) -> k <= hi (snd e) /\ (x_root (snd e) = None -> k <= lo (snd e)).
  Proof.
    intros (_ & _ & F) Hk Hin Hu. specialize (Hk e Hin). rewrite Forall_forall in F. specialize (F e Hin).
    unfold entry_ok in F. unfold is_up in Hu. unfold lo, hi. rewrite Rmin_left, Rmax_right by lra.
    destruct (x_root (snd e)).
    - destruct F as (_ & F). unfold Rng, between in F. rewrite Rmin_left, Rmax_right in F by lra. split; [lra|discriminate].
    - split; lra.
  Qed.
  Lemma low_head k x rest : inv xs0 ((k, x) :: rest) -> low k ((k, x) :: rest).
  Proof.
    intros I. assert (Hk : forall e', In e' ((k, x) :: rest) -> k <= fst e').
    { destruct I as (_ & S & _). apply StronglySorted_inv in S. destruct S as (_ & S). rewrite Forall_forall in S.
      intros e' [<-|H]; simpl; [lra|]. apply (S e' H). }
    unfold low. apply Forall_forall. intros e Hin. assert (I0 := I). destruct I as (P & S & F). rewrite Forall_forall in F. assert (Fe := F e Hin). unfold entry_ok in Fe.
    destruct (x_root (snd e)) eqn:Er.
    - destruct Fe as (E & _). rewrite <- E. auto.
    - assert (Hc : In (core e) (map core xs0)) by (apply (Permutation_in _ P), in_map, Hin).
      apply in_map_iff in Hc. destruct Hc as ([k0 x0] & Ec & H0). apply core_ext in Ec. simpl in Ec. destruct Ec as (El & Eh & Eu).
      destruct (partner _ _ H0) as [Hu|(k' & y & Hy & Hu & Hle)].
      + apply (up_key _ e k I0 Hk Hin); auto. tauto.
      + assert (Hc : In (core (k', y)) (map core ((k, x) :: rest))) by (apply (Permutation_in _ (Permutation_sym P)), in_map, Hy).
        apply in_map_iff in Hc. destruct Hc as (e' & Ec & He'). apply core_ext in Ec. simpl in Ec. destruct Ec as (El' & Eh' & Eu').
        destruct (up_key _ e' k I0 Hk He' ltac:(tauto)) as (X & _). lra.
  Qed.

  Variable analyze : R -> option fsol -> fsol.
  Hypothesis Hor : good_oracle n analyze.

  Lemma refine_low l1 k x l2 t it mm r s' v : 0 <= t -> inv xs0 (l1 ++ (k, x) :: l2) -> x_root x = None -> low v (l1 ++ (k, x) :: l2) ->
    refine analyze x (l1 ++ l2) t it mm = Ok (r, s') -> low v (f_xs s').
  Proof.
    intros Ht I Hx Hl E. destruct (refine_inv analyze n Hor xs0 xs0_sign _ _ _ _ _ _ _ _ _ Ht I E) as (_ & HR).
    assert (Hs : sign_ok (x_first x, x_second x, x_num x)).
    { assert (X := xs0_sign). rewrite Forall_forall in X. apply X. destruct I as (P & _). apply (Permutation_in _ P). rewrite map_app. simpl.
      apply in_or_app. right. now left. }
    destruct (refine_spec analyze n Hor _ _ _ _ _ _ _ Ht Hs E) as (_ & Ex & _).
    rewrite Ex. unfold low in *. rewrite (xinsert_perm _ _ _). rewrite Forall_app in *. destruct Hl as (Hl1 & Hl2). inversion Hl2 as [|? ? Hx' Hl2']; subst.
    constructor; [|apply Forall_app; auto]. simpl in *. rewrite Hx in Hx'. unfold Rng, between in HR. unfold lo in Hx'. lra.
  Qed.
  Lemma next_low t it s b r s' v : 0 <= t -> inv xs0 (f_xs s) -> low v (f_xs s) ->
    find_next_root analyze t it s = Ok (b, r, s') -> low v (f_xs s').
  Proof.
    intros Ht I Hl. unfold find_next_root. destruct (take_open (f_xs s)) as [[x rest]|] eqn:Et.
    - destruct (refine _ _ _ _ _ _) as [[r0 s1]|] eqn:E; simpl bind; [|discriminate].
      intros E'; inversion E'; subst. apply take_open_spec in Et. destruct Et as (k & l1 & l2 & E1 & -> & Hn).
      rewrite E1 in I, Hl. eapply refine_low; eauto.
    - intros E; inversion E; subst; auto.
  Qed.
  Lemma critical_low fuel : forall t it s b r s' v, 0 <= t -> inv xs0 (f_xs s) -> low v (f_xs s) ->
    find_critical_loop analyze fuel t it s = Ok (b, r, s') -> low v (f_xs s').
  Proof.
    induction fuel as [|f IH]; intros t it s b r s' v Ht I Hl; [discriminate|]. cbn [find_critical_loop].
    destruct (f_xs s) as [|[k x] rest] eqn:Ex.
    - intros E; inversion E; subst. rewrite Ex. auto.
    - destruct (x_root x) as [r0|] eqn:Er.
      + intros E; inversion E; subst. rewrite Ex. auto.
      + destruct (refine _ _ _ _ _ _) as [[r0 s1]|] eqn:E; simpl bind; [|discriminate]. intros E2.
        apply (IH t it s1 b r s' v Ht); auto.
        * apply (refine_inv analyze n Hor xs0 xs0_sign [] k x rest t it _ _ _ Ht I E).
        * apply (refine_low [] k x rest t it _ _ _ v Ht I Er Hl E).
  Qed.
End D.

(** ** the while loop terminates *)
Definition n_open (xs : xmap) : nat := length (filter (fun e => match x_root (snd e) with None => true | _ => false end) xs).
Lemma n_open_insert k x xs : n_open (xinsert k x xs) = n_open ((k, x) :: xs).
Proof. unfold n_open. apply Permutation_length. induction (xinsert_perm k x xs); simpl; auto; repeat destruct (x_root _); auto; try constructor; auto; try apply perm_swap. etransitivity; eauto. Qed.
Lemma sinsert_fuel V s m : sinsert V s m <> Fault OutOfFuel.
Proof.
  induction m as [|[k x] m IH]; simpl; [discriminate|]. destruct (rlt V k); [discriminate|]. destruct (rlt k V); [|discriminate].
  destruct (sinsert V s m); simpl; congruence.
Qed.
Lemma bisect_fuel analyze first num t n : forall b last m, bisect analyze first num t n b last m <> Fault OutOfFuel.
Proof.
  induction n as [|n IH]; intros b last m; cbn [bisect]; [discriminate|]. destruct (Req_EM_T _ _); [discriminate|]. cbv zeta.
  assert (X := sinsert_fuel (new_V b) (analyze (new_V b) (Some first)) m).
  destruct (sinsert _ _ m); simpl bind; [|congruence]. unfold get_root. destruct (nth_error _ num); simpl; [|discriminate].
  destruct (rle _ _); [discriminate|]. apply IH.
Qed.
Lemma refine_fuel analyze x rest t it m : refine analyze x rest t it m <> Fault OutOfFuel.
Proof.
  unfold refine, bisection_search, get_root at 1 2. destruct (nth_error _ _); simpl; [|discriminate]. destruct (nth_error _ _); simpl; [|discriminate].
  match goal with |- context [bisect ?a ?b ?c ?d ?e ?f ?g ?h] => assert (X := bisect_fuel a b c d e f g h); destruct (bisect a b c d e f g h) as [[[ok s] m']|] end; simpl; [|congruence].
  destruct s; [|discriminate]. unfold get_root. destruct (nth_error _ _); simpl; discriminate.
Qed.
Lemma refine_open analyze x rest t it m r s' : refine analyze x rest t it m = Ok (r, s') -> n_open (f_xs s') = n_open rest.
Proof.
  unfold refine. destruct (bisection_search _ _ _ _ _) as [[[ok so] m1]|]; simpl bind; [|discriminate]. cbn [fst snd].
  destruct so; [|discriminate]. destruct (get_root _ _); simpl bind; [|discriminate]. intros E; inversion E; subst. simpl. apply n_open_insert.
Qed.
Lemma critical_terminates analyze t it fuel : forall s, (n_open (f_xs s) < fuel)%nat -> find_critical_loop analyze fuel t it s <> Fault OutOfFuel.
Proof.
  induction fuel as [|f IH]; intros s Hf; [lia|]. cbn [find_critical_loop]. destruct (f_xs s) as [|[k x] rest]; [discriminate|].
  destruct (x_root x) eqn:Er; [discriminate|]. assert (X := refine_fuel analyze x rest t it (f_sols s)).
  destruct (refine _ _ _ _ _ _) as [[r s1]|] eqn:E; simpl bind; [|congruence]. apply IH. simpl.
  rewrite (refine_open _ _ _ _ _ _ _ _ E). unfold n_open in *. simpl in Hf. rewrite Er in Hf. simpl in Hf. lia.
Qed.
Lemma n_open_le xs : (n_open xs <= length xs)%nat.
Proof. unfold n_open. induction xs as [|e xs IH]; simpl; auto. destruct (x_root (snd e)); simpl; lia. Qed.

(** ** the sweep *)
Lemma sinsert_last V s m : Forall (fun e => fst e < V) m -> sinsert V s m = Ok (m ++ [(V, s)]).
Proof.
  induction 1 as [|[k x] m Hk Hm IH]; simpl; auto. simpl in Hk. destruct (rlt_spec V k); [lra|]. destruct (rlt_spec k V); [|lra].
  rewrite IH. reflexivity.
Qed.
Lemma V_val_step lo hi n i : (0 < n)%nat -> (i < n)%nat -> V_val lo hi n (S i) = V_val lo hi n i + (hi - lo) / INR n.
Proof.
  intros Hn Hi. assert (INR n <> 0) by (apply not_0_INR; lia). unfold V_val. destruct (Nat.eqb_spec i n); [lia|].
  destruct (Nat.eqb_spec (S i) n) as [E|]; [|rewrite S_INR; field; auto].
  subst n. rewrite S_INR in *. field; auto.
Qed.
Lemma V_val_mono lo hi n i j : lo < hi -> (i < j)%nat -> (j <= n)%nat -> V_val lo hi n i < V_val lo hi n j.
Proof.
  intros H Hij Hj. assert (Hd : 0 < (hi - lo) / INR n). { apply Rmult_lt_0_compat; [lra|]. apply Rinv_0_lt_compat, lt_0_INR. lia. }
  induction Hij.
  - rewrite V_val_step by lia. lra.
  - assert (X := IHHij ltac:(lia)). rewrite (V_val_step lo hi n m) by lia. lra.
Qed.
Fixpoint sweep (analyze : R -> option fsol -> fsol) (lo hi : R) (n : nat) (k : nat) : smap * option fsol :=
  match k with
  | O => ([], None)
  | S i => let a := sweep analyze lo hi n i in
           (fst a ++ [(V_val lo hi n i, analyze (V_val lo hi n i) (snd a))], Some (analyze (V_val lo hi n i) (snd a)))
  end.
Lemma sweep_keys analyze lo hi n k : map fst (fst (sweep analyze lo hi n k)) = map (V_val lo hi n) (seq 0 k).
Proof. induction k as [|k IH]; [reflexivity|]. rewrite seq_S. cbn [sweep fst]. rewrite !map_app, IH. reflexivity. Qed.
Lemma sweep_loop analyze lo hi n : lo < hi -> forall k, (k <= S n)%nat ->
  loop k (fun i (a : smap * option fsol) =>
     let V := V_val lo hi n i in
     let sol := analyze V (snd a) in
     m <- sinsert V sol (fst a) ;; Ok (m, Some sol)) ([], None) = Ok (sweep analyze lo hi n k).
Proof.
  intros H. match goal with |- forall k, _ -> loop k ?b _ = _ => set (body := b) end.
  induction k as [|k IH]; intros Hk; [reflexivity|]. cbn [loop]. rewrite IH by lia. cbn [bind]. unfold body. cbv zeta.
  rewrite sinsert_last; [reflexivity|]. apply Forall_forall. intros e He. apply (in_map fst) in He. rewrite sweep_keys in He.
  apply in_map_iff in He. destruct He as (j & <- & Hj). apply in_seq in Hj. apply V_val_mono; auto; lia.
Qed.
Lemma sweep_good N analyze lo hi n k : good_oracle N analyze ->
  Forall (good_sol N) (map snd (fst (sweep analyze lo hi n k))) /\ map ref_val (map snd (fst (sweep analyze lo hi n k))) = map (V_val lo hi n) (seq 0 k).
Proof.
  intros Ho. induction k as [|k (IH1 & IH2)]; [split; [constructor|reflexivity]|]. rewrite seq_S. cbn [sweep fst].
  destruct (Ho (V_val lo hi n k) (snd (sweep analyze lo hi n k))) as (E & G). rewrite !map_app. split.
  - apply Forall_app. split; auto. simpl. auto.
  - rewrite IH2. simpl. now rewrite E.
Qed.
Lemma seq_sorted lo hi n : lo < hi -> forall k a, (a + k <= S n)%nat -> StronglySorted Rlt (map (V_val lo hi n) (seq a k)).
Proof.
  intros H. induction k as [|k IH]; intros a Hk; simpl; constructor.
  - apply IH. lia.
  - apply Forall_forall. intros v Hv. apply in_map_iff in Hv. destruct Hv as (j & <- & Hj). apply in_seq in Hj. apply V_val_mono; auto; lia.
Qed.
Lemma consecutive_map l a b : consecutive l a b -> exists l1 l2, map ref_val l = l1 ++ ref_val a :: ref_val b :: l2.
Proof. intros (l1 & l2 & ->). exists (map ref_val l1), (map ref_val l2). rewrite map_app. reflexivity. Qed.
Lemma seq_consecutive {A} (f : nat -> A) k : forall s l1 l2 a b, map f (seq s k) = l1 ++ a :: b :: l2 ->
  exists i, (s <= i)%nat /\ (S i < s + k)%nat /\ a = f i /\ b = f (S i).
Proof.
  induction k as [|k IH]; intros s l1 l2 a b E; [destruct l1; discriminate|]. simpl in E. destruct l1 as [|c l1].
  - destruct k; [discriminate|]. simpl in E. inversion E. exists s. repeat split; auto; lia.
  - simpl in E. inversion E as [[E1 E2]]. destruct (IH _ _ _ _ _ E2) as (i & H1 & H2 & -> & ->). exists i. repeat split; auto; lia.
Qed.
