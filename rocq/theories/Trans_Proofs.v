From Coq Require Import Reals List Arith Lia Lra Bool FunctionalExtensionality.
From Verif Require Import Base BaseLemmas Trans_Model Trans_Spec.
Import ListNotations.
Open Scope R_scope.

(** ** History *)
Lemma put_same h k x : put h k x k = x.
Proof. unfold put. now rewrite Nat.eqb_refl. Qed.
Lemma put_other h k x i : i <> k -> put h k x i = h i.
Proof. unfold put. intros H. now apply Nat.eqb_neq in H as ->. Qed.

Lemma shift_spec m : forall q i, shift m q i = if (Nat.eqb i 0 || Nat.ltb m i)%bool then q i else q (i - 1)%nat.
Proof.
  induction m as [|m IH]; intros q i; simpl shift.
  - destruct i; simpl; auto.
  - rewrite IH. destruct (Nat.eqb_spec i 0); simpl; subst; [now rewrite put_other|].
    destruct (Nat.ltb_spec m i); destruct (Nat.ltb_spec (S m) i); try lia.
    + rewrite put_other; auto; lia.
    + replace i with (S m) by lia. rewrite put_same. f_equal; lia.
    + rewrite put_other; auto; lia.
Qed.

Definition sim1 (k : scheme) (n : nat) (h : hist) (l : slog) : Prop :=
  forall i, (i < n)%nat -> holds k h i (back l i).

Lemma back_accept l e i : back (accept l e) (S i) = if Nat.eqb i 0 then e else back l i.
Proof. destruct i; simpl; auto. Qed.
Lemma back_cur l c i : back (mkLog c (accepted l) (before l)) (S i) = back l (S i).
Proof. reflexivity. Qed.

Lemma new_entry_ext_v k dt x0 v0 a0 x x0' v0' a0' d :
  (forall d, x0 d = x0' d) -> (forall d, v0 d = v0' d) -> (order2 k = true -> forall d, a0 d = a0' d) ->
  update_velocity k dt x0 v0 a0 x d = update_velocity k dt x0' v0' a0' x d.
Proof.
  intros A B C. destruct k; unfold update_velocity, addv, scalev; simpl in C; rewrite ?A, ?B, ?C; auto.
Qed.
Lemma new_entry_ext_a k dt x0 v0 a0 x x0' v0' a0' d :
  (forall d, x0 d = x0' d) -> (forall d, v0 d = v0' d) -> (order2 k = true -> forall d, a0 d = a0' d) ->
  update_acceleration k dt x0 v0 a0 x d = update_acceleration k dt x0' v0' a0' x d.
Proof.
  intros A B C. destruct k; unfold update_acceleration, addv, scalev; simpl in C; rewrite ?A, ?B, ?C; auto.
Qed.

Lemma sim_load0 k n d h l x : (1 < n)%nat -> sim1 k n h l ->
  sim1 k n (load0 k d h x) (mkLog (new_entry k d l x) (accepted l) (before l)).
Proof.
  intros Hn H i Hi. pose proof (H 1%nat Hn) as H1. unfold new_entry.
  destruct (back l 1) as [[x0 v0] a0] eqn:E1. unfold holds in H1. destruct H1 as (A & B & C).
  destruct i as [|i].
  - cbn [back cur]. unfold holds, load0. cbn [hx hv ha]. split; [|split].
    + now intros; rewrite put_same.
    + intros; rewrite put_same. apply new_entry_ext_v; auto.
    + intros O d0. rewrite O, put_same. apply new_entry_ext_a; auto.
  - rewrite back_cur. specialize (H (S i) Hi). destruct (back l (S i)) as [[xx vv] aa].
    unfold holds in *. unfold load0; cbn [hx hv ha]. rewrite !put_other by lia.
    destruct H as (P & Q & W). repeat split; auto. intros O. rewrite O, put_other by lia; auto.
Qed.
Lemma load0_sens_eq k d h x : load0_sens k d h x = load0 k d h x.
Proof. destruct k; reflexivity. Qed.
Lemma sim_correct0 k n h l c : (0 < n)%nat -> sim1 k n h l ->
  sim1 k n (correct0 k h c) (mkLog (corrected k l c) (accepted l) (before l)).
Proof.
  intros Hn H i Hi. pose proof (H 0%nat Hn) as H0. unfold corrected. simpl in H0.
  destruct (cur l) as [[x v] a] eqn:E. destruct H0 as (A & B & C). unfold correct0.
  destruct i as [|i].
  - simpl back. destruct (order2 k) eqn:O; simpl; rewrite O; cbn [hx hv ha]; repeat split; auto.
    + intros _ d. rewrite put_same. unfold addv. rewrite C; auto. ring.
    + intros d. rewrite put_same. unfold addv. rewrite B. ring.
  - rewrite back_cur. specialize (H (S i) Hi). destruct (back l (S i)) as [[xx vv] aa].
    destruct (order2 k) eqn:O; simpl; rewrite ?O; cbn [hx hv ha]; rewrite put_other by lia;
    unfold holds in H; rewrite O in H; tauto.
Qed.
Lemma sim_shift k n h l e : (0 < n)%nat -> sim1 k n h (mkLog e (accepted l) (before l)) ->
  sim1 k n (shift_all (order2 k) n h) (accept l e).
Proof.
  intros Hn H i Hi.
  assert (Hs : forall q : nat -> vec, shift (n - 1) q i = if Nat.eqb i 0 then q 0%nat else q (i - 1)%nat).
  { intros q. rewrite shift_spec. destruct (Nat.eqb_spec i 0); subst; simpl; auto.
    destruct (Nat.ltb_spec (n - 1) i); auto; lia. }
  assert (Hh : exists e', back (accept l e) i = e' /\
     e' = back (mkLog e (accepted l) (before l)) (if Nat.eqb i 0 then 0%nat else (i - 1)%nat)).
  { eexists; split; [reflexivity|]. destruct i as [|[|i]]; reflexivity. }
  destruct Hh as (e' & -> & ->).
  assert (Hi' : ((if Nat.eqb i 0 then 0 else i - 1) < n)%nat) by (destruct (Nat.eqb_spec i 0); lia).
  specialize (H _ Hi').
  destruct (back (mkLog e (accepted l) (before l)) _) as [[x v] a].
  unfold holds in *. unfold shift_all; cbn [hx hv ha]. rewrite !Hs.
  destruct H as (P & Q & W). destruct (Nat.eqb i 0); repeat split; auto; intros O; rewrite O, Hs in *; auto.
Qed.

Definition sim (s : tsolver) (p : sspec) : Prop :=
  sim1 (kind s) (n_store s) (st s) (slg p) /\ sim1 (kind s) (n_store s) (sens s) (sslg p) /\
  time s = stime p /\ dt s = sdt p.

Lemma tstep_sim s p o s' : (0 < n_store s)%nat -> sim s p -> tstep s o = Ok s' ->
  sim s' (sstep (kind s) p o) /\ kind s' = kind s /\ n_store s' = n_store s.
Proof.
  destruct s as [k n h hs t d f fs], p as [l ls t' d']. unfold sim; cbn [kind n_store st sens time dt].
  intros Hn (A & B & -> & ->) H. simpl in A, B, Hn.
  destruct o; simpl in H; unfold assert_ in H;
  repeat match type of H with (if ?b then _ else _) = _ => destruct b eqn:?; try discriminate end;
  inversion H; subst; clear H; cbn [sstep slg sslg stime sdt kind n_store st sens time dt]; repeat split; auto;
  try (match goal with E : Nat.ltb 1 n = true |- _ => apply Nat.ltb_lt in E end).
  - intros [|i] Hi.
    + pose proof (A 0%nat Hn) as A0. simpl in *. destruct (cur l) as [[x0 v0] a0]. simpl in *.
      destruct A0 as (P & Q & W). repeat split; auto; intros; now rewrite put_same.
    + rewrite back_cur. pose proof (A (S i) Hi) as A0. destruct (back l (S i)) as [[x0 v0] a0]. simpl in *.
      rewrite !put_other by lia. auto.
  - now apply sim_load0.
  - apply sim_shift; auto. now apply sim_load0.
  - apply sim_shift; auto. now apply sim_correct0.
  - apply sim_shift; auto. rewrite load0_sens_eq. now apply sim_load0.
  - apply sim_shift; auto. now apply sim_correct0.
  - intros [|i] Hi.
    + pose proof (A 0%nat Hn) as A0. simpl in *. destruct (cur l) as [[x0 v0] a0]. simpl in *.
      destruct A0 as (P & Q & W). repeat split; auto. intros O. rewrite O. auto.
    + simpl. destruct i; simpl; repeat split; auto; intros O; rewrite O; auto.
  - intros i Hi. destruct i as [|[|i]]; simpl; repeat split; auto; intros O; rewrite O; auto.
Qed.

Lemma trun_sim ops : forall s p s', (0 < n_store s)%nat -> sim s p -> trun s ops = Ok s' ->
  sim s' (fold_left (sstep (kind s)) ops p) /\ kind s' = kind s /\ n_store s' = n_store s.
Proof.
  induction ops as [|o t IH]; intros s p s' Hn HS H; simpl in *.
  - inversion H; subst; auto.
  - destruct (tstep s o) as [s1|] eqn:E; simpl in H; [|discriminate].
    destruct (tstep_sim _ _ _ _ Hn HS E) as (A & B & C).
    assert (Hn1 : (0 < n_store s1)%nat) by (rewrite C; exact Hn).
    destruct (IH s1 _ s' Hn1 A H) as (P & Q & W).
    rewrite B in P. rewrite Q, W. auto.
Qed.

Lemma history_refines k n x t ops s : (1 < n)%nat -> trun (new_solver k n x t) ops = Ok s ->
  let p := fold_left (sstep k) ops (start x t) in
  (forall i, (i < n)%nat -> holds k (st s) i (back (slg p) i) /\ holds k (sens s) i (back (sslg p) i)) /\
  time s = stime p.
Proof.
  intros Hn H. destruct (trun_sim ops (new_solver k n x t) (start x t) s) as ((A & B & C & D) & E & F); auto.
  - simpl; lia.
  - repeat split; simpl; auto; intros i Hi; destruct i as [|[|i]]; simpl; repeat split; auto.
  - simpl in E, F. rewrite E, F in *. cbn zeta. simpl kind in *. split; auto.
Qed.

Lemma runs_ok k n x t ops : (1 < n)%nat ->
  (forall o, In o ops -> match o with Highest _ _ | HighestSens _ => False | _ => True end) ->
  exists s, trun (new_solver k n x t) ops = Ok s.
Proof.
  intros Hn. assert (G : forall s, (n_store s = n)%nat ->
    (forall o, In o ops -> match o with Highest _ _ | HighestSens _ => False | _ => True end) ->
    exists s', trun s ops = Ok s').
  { induction ops as [|o r IH]; intros s Hs Ho; simpl; eauto.
    assert (exists s1, tstep s o = Ok s1 /\ n_store s1 = n) as (s1 & E & E').
    { pose proof (Ho o (or_introl eq_refl)). destruct s as [k' n' h hs t' d f fs]; simpl in Hs; subst n'.
      apply Nat.ltb_lt in Hn. destruct o; simpl in *; rewrite ?Hn; simpl; try tauto; eexists; split; reflexivity. }
    rewrite E; simpl. apply IH; auto. intros; apply Ho; simpl; auto. }
  intros Ho. apply G; auto.
Qed.

(** ** Relations *)
Lemma newmark2_ok beta gamma dt x0 v0 a0 x : beta <> 0 -> dt <> 0 ->
  newmark2 beta gamma dt x0 v0 a0 x
    (update_velocity (Second beta gamma) dt x0 v0 a0 x) (update_acceleration (Second beta gamma) dt x0 v0 a0 x).
Proof. intros Hb Hd i. unfold update_velocity, update_acceleration, addv, scalev. split; field; auto. Qed.
Lemma newmark2_sens_ok beta gamma dt x0 v0 a0 x : beta <> 0 -> dt <> 0 ->
  newmark2 beta gamma dt x0 v0 a0 x
    (update_sensitivity_velocity (Second beta gamma) dt x0 v0 a0 x)
    (update_sensitivity_acceleration (Second beta gamma) dt x0 v0 a0 x).
Proof. exact (newmark2_ok beta gamma dt x0 v0 a0 x). Qed.
Lemma newmark2_unique beta gamma dt x0 v0 a0 x v1 a1 : beta <> 0 -> dt <> 0 ->
  newmark2 beta gamma dt x0 v0 a0 x v1 a1 -> forall i,
    v1 i = update_velocity (Second beta gamma) dt x0 v0 a0 x i /\
    a1 i = update_acceleration (Second beta gamma) dt x0 v0 a0 x i.
Proof.
  intros Hb Hd H i. destruct (H i) as (A & B).
  assert (E : a1 i = update_acceleration (Second beta gamma) dt x0 v0 a0 x i).
  { unfold update_acceleration, addv, scalev. rewrite A. field; auto. }
  split; auto. rewrite B, E. unfold update_velocity, update_acceleration, addv, scalev. field; auto.
Qed.
Lemma newmark1_ok beta dt x0 v0 a0 x : beta <> 0 -> dt <> 0 ->
  newmark1 beta dt x0 v0 x (update_velocity (First beta) dt x0 v0 a0 x).
Proof. intros Hb Hd i. unfold update_velocity, addv, scalev. field; auto. Qed.
Lemma newmark1_sens_ok beta dt x0 v0 a0 x : beta <> 0 -> dt <> 0 ->
  newmark1 beta dt x0 v0 x (update_sensitivity_velocity (First beta) dt x0 v0 a0 x).
Proof. exact (newmark1_ok beta dt x0 v0 a0 x). Qed.
Lemma newmark1_unique beta dt x0 v0 a0 x v1 : beta <> 0 -> dt <> 0 ->
  newmark1 beta dt x0 v0 x v1 -> forall i, v1 i = update_velocity (First beta) dt x0 v0 a0 x i.
Proof.
  intros Hb Hd H i. unfold update_velocity, addv, scalev. rewrite (H i). field; auto.
Qed.
Lemma delta_exact k dt x0 v0 a0 x dx i :
  update_velocity k dt x0 v0 a0 (fun j => x j + dx j) i - update_velocity k dt x0 v0 a0 x i =
    update_delta_velocity k dt dx i /\
  update_acceleration k dt x0 v0 a0 (fun j => x j + dx j) i - update_acceleration k dt x0 v0 a0 x i =
    update_delta_acceleration k dt dx i.
Proof.
  destruct k; unfold update_velocity, update_acceleration, update_delta_velocity, update_delta_acceleration,
  addv, scalev, vzero; split; ring.
Qed.

(** ** Jacobians *)
Lemma vel_along k dt x0 v0 a0 x D t :
  update_velocity k dt x0 v0 a0 (along x D t) =
  along (update_velocity k dt x0 v0 a0 x) (update_delta_velocity k dt D) t.
Proof.
  extensionality i. destruct k; unfold along, update_velocity, update_delta_velocity, addv, scalev; ring.
Qed.
Lemma acc_along k dt x0 v0 a0 x D t :
  update_acceleration k dt x0 v0 a0 (along x D t) =
  along (update_acceleration k dt x0 v0 a0 x) (update_delta_acceleration k dt D) t.
Proof.
  extensionality i. destruct k; unfold along, update_acceleration, update_delta_acceleration, addv, scalev, vzero; ring.
Qed.
Lemma local_along e x D t : local e (along x D t) = along (local e x) (local e D) t.
Proof. reflexivity. Qed.
Lemma blend_along al x D t p : blend al (along x D t) p = along (blend al x p) (scalev (1 - al) D) t.
Proof. extensionality i. unfold blend, along, scalev. ring. Qed.

Lemma dlim_plus_eq f g l1 l2 l : derivable_pt_lim f 0 l1 -> derivable_pt_lim g 0 l2 -> l1 + l2 = l ->
  derivable_pt_lim (fun t => f t + g t) 0 l.
Proof. intros A B <-. exact (derivable_pt_lim_plus f g 0 l1 l2 A B). Qed.

Lemma first_jacobian_exact beta dt e h X : exact1 e ->
  is_jacobian e (first_residual beta dt e h) (first_jacobian beta dt e h X) X.
Proof.
  intros (Hm & Hx) D i Hi.
  set (k := First beta).
  set (v := update_velocity k dt (hx h 1%nat) (hv h 1%nat) (ha h 1%nat) X).
  set (dv := local e (update_delta_velocity k dt D)).
  replace (fun t => first_residual beta dt e h (along X D t) i) with
    (fun t => fm e (along (local e X) (local e D) t) (along (local e v) dv t) vzero i +
              fx e (along (local e X) (local e D) t) (along (local e v) dv t) i).
  2:{ extensionality t. unfold first_residual. fold k. rewrite vel_along. reflexivity. }
  eapply dlim_plus_eq; [apply Hm; auto|apply Hx; auto|].
  rewrite <- sum_plus. apply sum_ext. intros j Hj. unfold first_jacobian. fold k. fold v.
  unfold dv, local, update_delta_velocity, k, scalev. ring.
Qed.
Lemma first_high_exact e h v : exact1 e ->
  is_jacobian e (first_high_residual e h) (first_high_jacobian e h v) v.
Proof.
  intros (Hm & Hx) D i Hi. set (x := local e (hx h 0%nat)).
  assert (Hz : forall t, x = along x vzero t) by (intros; extensionality k; unfold along, vzero; ring).
  replace (fun t => first_high_residual e h (along v D t) i) with
    (fun t => fm e (along x vzero t) (along (local e v) (local e D) t) vzero i +
              fx e (along x vzero t) (along (local e v) (local e D) t) i).
  2:{ extensionality t. unfold first_high_residual. fold x. rewrite local_along, <- Hz. reflexivity. }
  eapply dlim_plus_eq; [apply Hm; auto|apply Hx; auto|].
  rewrite <- sum_plus. apply sum_ext. intros j Hj. unfold first_high_jacobian. fold x.
  unfold local, vzero. ring.
Qed.
Lemma second_jacobian_exact beta gamma am af dt e h X : exact2 e ->
  is_jacobian e (second_residual beta gamma am af dt e h) (second_jacobian beta gamma am af dt e h X) X.
Proof.
  intros (Hm & Hx) D i Hi.
  set (k := Second beta gamma).
  set (v := update_velocity k dt (hx h 1%nat) (hv h 1%nat) (ha h 1%nat) X).
  set (a := update_acceleration k dt (hx h 1%nat) (hv h 1%nat) (ha h 1%nat) X).
  set (xe := local e (blend af X (hx h 1%nat))).
  set (ve := local e (blend af v (hv h 1%nat))).
  set (ae := local e (blend am a (ha h 1%nat))).
  set (dxe := local e (scalev (1 - af) D)).
  set (dve := local e (scalev (1 - af) (update_delta_velocity k dt D))).
  set (dae := local e (scalev (1 - am) (update_delta_acceleration k dt D))).
  replace (fun t => second_residual beta gamma am af dt e h (along X D t) i) with
    (fun t => fm e (along xe dxe t) (along ve dve t) (along ae dae t) i +
              fx e (along xe dxe t) (along ve dve t) i).
  2:{ extensionality t. unfold second_residual. fold k. rewrite vel_along, acc_along, !blend_along. reflexivity. }
  eapply dlim_plus_eq; [apply Hm; auto|apply Hx; auto|].
  rewrite <- sum_plus. apply sum_ext. intros j Hj. unfold second_jacobian. fold k. fold v. fold a.
  fold xe. fold ve. fold ae. unfold dxe, dve, dae, local, update_delta_velocity, update_delta_acceleration, k, scalev. ring.
Qed.
Lemma second_high_exact af e h a : exact2 e ->
  is_jacobian e (second_high_residual 0 af e h) (second_high_jacobian 0 af e h a) a.
Proof.
  intros (Hm & Hx) D i Hi.
  set (xe := local e (blend af (hx h 0%nat) (hx h 1%nat))).
  set (ve := local e (blend af (hv h 0%nat) (hv h 1%nat))).
  set (ae := local e (blend 0 a (ha h 1%nat))).
  assert (Hz : forall (y : vec) t, y = along y vzero t) by (intros; extensionality k; unfold along, vzero; ring).
  replace (fun t => second_high_residual 0 af e h (along a D t) i) with
    (fun t => fm e (along xe vzero t) (along ve vzero t) (along ae (local e (scalev (1 - 0) D)) t) i +
              fx e (along xe vzero t) (along ve vzero t) i).
  2:{ extensionality t. unfold second_high_residual. fold xe. fold ve. rewrite blend_along, <- !Hz. reflexivity. }
  eapply dlim_plus_eq; [apply Hm; auto|apply Hx; auto|].
  rewrite <- sum_plus. apply sum_ext. intros j Hj. unfold second_high_jacobian. fold xe. fold ve. fold ae.
  unfold local, vzero, scalev. ring.
Qed.

Lemma product_exact beta gamma dt e h x dx i : exact_product e -> (i < nd e)%nat ->
  second_product beta gamma 0 0 dt e h x dx i =
  sum (nd e) (fun j => second_jacobian beta gamma 0 0 dt e h x i j * dx (dofs e j)).
Proof.
  intros H Hi. unfold second_product. rewrite H by auto. apply sum_ext. intros j Hj.
  unfold second_jacobian, local, update_delta_velocity, update_delta_acceleration, scalev. ring.
Qed.

(** previous-step sensitivity term *)
Lemma prev_sens_exact beta dt e x v xs xs0 vs0 as0 i :
  sum (nd e) (fun j => jmd e x v vzero i j * local e (update_velocity (First beta) dt xs0 vs0 as0 xs) j) =
  sum (nd e) (fun j => (1 / beta / dt) * jmd e x v vzero i j * local e xs j) + first_prev_sens beta dt e x v xs0 vs0 i.
Proof.
  unfold first_prev_sens. rewrite <- sum_scal_l, <- sum_plus. apply sum_ext. intros j Hj.
  unfold local, update_velocity, addv, scalev, Rdiv. ring.
Qed.

(** ** highest derivative solve *)
Lemma sum_sub n f g : sum n (fun j => f j - g j) = sum n f - sum n g.
Proof. induction n; simpl; [ring|rewrite IHn; ring]. Qed.
Lemma high_solve_linear n M C K p h dvec i :
  let e := linear_elem n (fun j => j) M C K p in
  (i < n)%nat ->
  (forall i, (i < n)%nat ->
     sum n (fun j => second_high_jacobian 0 0 e h (ha h 0%nat) i j * dvec j) =
     second_high_residual 0 0 e h (ha h 0%nat) i) ->
  let a := addv (-1) dvec (ha h 0%nat) in
  sum n (fun j => M i j * a j) + sum n (fun j => C i j * hv h 0%nat j) + sum n (fun j => K i j * hx h 0%nat j) = p i.
Proof.
  intros e Hi H a. specialize (H i Hi). unfold second_high_jacobian, second_high_residual in H. simpl in H.
  unfold local in H. simpl in H.
  assert (B : forall c p : vec, forall j, blend 0 c p j = c j) by (intros; unfold blend; ring).
  unfold a. erewrite (sum_ext n (fun j => M i j * addv (-1) dvec (ha h 0%nat) j)
     (fun j => M i j * ha h 0%nat j - M i j * dvec j)) by (intros; unfold addv; ring).
  rewrite sum_sub, H.
  rewrite (sum_ext n (fun j => M i j * blend 0 (ha h 0%nat) (ha h 1%nat) j) (fun j => M i j * ha h 0%nat j))
    by (intros; now rewrite B).
  rewrite (sum_ext n (fun j => C i j * blend 0 (hv h 0%nat) (hv h 1%nat) j) (fun j => C i j * hv h 0%nat j))
    by (intros; now rewrite B).
  rewrite (sum_ext n (fun j => K i j * blend 0 (hx h 0%nat) (hx h 1%nat) j) (fun j => K i j * hx h 0%nat j))
    by (intros; now rewrite B).
  ring.
Qed.

Lemma linear_exact2 n df M C K p : exact2 (linear_elem n df M C K p).
Proof.
  assert (L : forall (A : nat -> nat -> R) (x d : vec) i,
    derivable_pt_lim (fun t => sum n (fun j => A i j * along x d t j)) 0 (sum n (fun j => A i j * d j))).
  { intros A x d i.
    replace (fun t => sum n (fun j => A i j * along x d t j)) with
      (fun t => sum n (fun j => A i j * x j) + sum n (fun j => A i j * d j) * t).
    2:{ extensionality t. rewrite <- sum_scal_r, <- sum_plus. apply sum_ext; intros; unfold along; ring. }
    set (c0 := sum n (fun j => A i j * x j)). set (c1 := sum n (fun j => A i j * d j)).
    apply dlim_plus_eq with (l1 := 0) (l2 := c1 * 1).
    - apply derivable_pt_lim_const.
    - apply (derivable_pt_lim_scal (fun t => t)). apply derivable_pt_lim_id.
    - ring. }
  split; simpl; intros.
  - erewrite sum_ext; [apply L|]. intros; simpl; ring.
  - rewrite sum_plus.
    replace (sum n (fun i0 => C i i0 * dv i0) + sum n (fun i0 => K i i0 * dx i0))
      with (sum n (fun i0 => C i i0 * dv i0) + sum n (fun i0 => K i i0 * dx i0) - 0) by ring.
    apply (derivable_pt_lim_minus (fun t => sum n (fun j => C i j * along v dv t j) + sum n (fun j => K i j * along x dx t j)) (fun _ => p i)).
    + apply (derivable_pt_lim_plus (fun t => sum n (fun j => C i j * along v dv t j))); apply L.
    + apply derivable_pt_lim_const.
Qed.
Lemma linear_product n df M C K p : exact_product (linear_elem n df M C K p).
Proof. intros x v a dx dv da i Hi. simpl. apply sum_ext; intros; ring. Qed.

(** ** generalised alpha coefficients *)
Lemma ga_ok rho : 0 <= rho <= 1 ->
  let c := update_coefficient rho in
  ga_gamma c = 1/2 - alpha_m c + alpha_f c /\ alpha_m c <= alpha_f c <= 1/2 /\
  ga_beta c >= 1/4 + (alpha_f c - alpha_m c) / 2 /\ 0 < ga_beta c.
Proof.
  intros H. simpl.
  set (am := (2 * rho - 1) / (rho + 1)). set (af := rho / (rho + 1)).
  assert (Hd : af - am = (1 - rho) / (rho + 1)) by (unfold af, am; field; lra).
  assert (Hpos : 0 < rho + 1) by lra.
  assert (H1 : am <= af).
  { assert (0 <= af - am); [|lra]. rewrite Hd. apply Rmult_le_pos; [lra|]. left. now apply Rinv_0_lt_compat. }
  assert (H2 : af <= 1/2).
  { unfold af. apply (Rmult_le_reg_r (rho + 1)); auto. unfold Rdiv at 1. rewrite Rmult_assoc, Rinv_l; lra. }
  repeat split; auto.
  - apply Rle_ge. nra.
  - nra.
Qed.
