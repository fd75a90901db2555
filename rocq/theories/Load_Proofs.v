(** Work of the loads. *)
From Coq Require Import Reals Lra.
From Coquelicot Require Import Coquelicot.
From Coq Require Import List Arith Bool Lia.
From Verif Require Import Base BaseLemmas RBool Sens_Spec Sens_Proofs Sens_Proofs2 Heat_Proofs Solid_Model Solid_Spec Solid_Proofs2 Dof6_Model Beam_Spec Dof6_Proofs Beam_Proofs Beam_Proofs2 Beam_Props
  Plate_Spec Load_Model Load_Spec.
Import ListNotations.
Open Scope R_scope.

Lemma tcons {A} (f : A -> R) x l : total f (x :: l) = f x + total f l.
Proof. reflexivity. Qed.
Section L.
Variable n : nat.
Lemma vm_all q d r : (r < 6)%nat -> vm n (b_all q) d r = value n q d r.
Proof.
  intros Hr. unfold vm, b_all, value. rewrite (sum_single 6 r); auto.
  - apply sum_ext. intros a _. now rewrite Nat.eqb_refl.
  - intros c _ Hc. apply sum_0. intros a _. destruct (Nat.eqb_spec r c); [lia|ring].
Qed.
Lemma nodal_dot qs w force d : dot6 n (nodal qs w force) d = total (fun q => w q * sum 6 (fun r => force q r * value n q d r)) qs.
Proof.
  unfold nodal. assert (G : forall v, dot6 n (fold_left (fun v q => plusf (w q) (vmt 6 (b_all q) (force q)) v) qs v) d
    = dot6 n v d + total (fun q => w q * sum 6 (fun r => force q r * value n q d r)) qs).
  { induction qs as [|q qs IH]; intros v; cbn [fold_left]; [rewrite total_nil; ring|]. rewrite IH, dot_plusf, dot_vmt.
    rewrite (sum_ext 6 _ (fun r => force q r * value n q d r)); [rewrite tcons; ring|].
    intros r Hr. rewrite vm_all by auto. ring. }
  rewrite G, dot_zf. ring.
Qed.
Lemma sum_force3 v x : sum 6 (fun r => force3 v r * x r) = sum 3 (fun r => v r * x r).
Proof. cbn [sum]. unfold force3. cbn [Nat.ltb Nat.leb]. ring. Qed.
Lemma nodal_work qs t force d : dot6 n (to_global t (nodal qs jxw (fun q => force3 (force q)))) d = force_work n qs t force d.
Proof.
  rewrite dot_global, nodal_dot, <- in_axes_eq. unfold force_work, integral. apply total_eq. intros q _. now rewrite sum_force3.
Qed.
Lemma carries_ok qs t force f : carries n qs t force f (plusf (- 1) (to_global t (nodal qs jxw (fun q => force3 (force q)))) f).
Proof. intros d. rewrite dot_minusf, dot_plusf, nodal_work. ring. Qed.
Lemma work_ext qs t force force' d : (forall q k, In q qs -> (k < 3)%nat -> force q k = force' q k) -> force_work n qs t force d = force_work n qs t force' d.
Proof. intros H. unfold force_work. apply integral_ext. intros q Hq. apply sum_ext. intros k Hk. now rewrite H. Qed.
Lemma carries_ext qs t force force' f f' : (forall q k, In q qs -> (k < 3)%nat -> force q k = force' q k) -> carries n qs t force f f' -> carries n qs t force' f f'.
Proof. intros H C d. rewrite (C d). f_equal. now apply work_ext. Qed.
Lemma down_pressure dim p k : p * down dim k = pressure_force dim p k.
Proof. unfold down, pressure_force. destruct (Nat.eqb k dim); ring. Qed.
(** what follows from the work *)
Lemma carries_entry qs t force f f' c a : carries n qs t force f f' -> (c < 6)%nat -> (a < n)%nat -> f' c a = f c a - force_work n qs t force (unit_dof c a).
Proof. intros C Hc Ha. specialize (C (unit_dof c a)). rewrite dot_unit in C by auto. unfold minusf in C. lra. Qed.
Lemma in_axes_rot t c a k e : (3 <= c < 6)%nat -> (k < 3)%nat -> in_axes t (unit_dof c a) k e = 0.
Proof.
  intros Hc Hk. unfold in_axes. destruct t as [t|].
  - apply sum_0. intros l Hl. unfold unit_dof. replace (k / 3)%nat with 0%nat by (symmetry; apply Nat.div_small; lia).
    destruct (Nat.eqb_spec c (3 * 0 + l)); [lia|]. cbn [andb]. ring.
  - unfold unit_dof. destruct (Nat.eqb_spec c k); [lia|]. reflexivity.
Qed.
Lemma carries_no_moment qs t force f f' c a : carries n qs t force f f' -> (3 <= c < 6)%nat -> (a < n)%nat -> f' c a = f c a.
Proof.
  intros C Hc Ha. rewrite (carries_entry qs t force f f' c a C) by lia. unfold force_work. rewrite (integral_ext _ _ (fun _ => 0)); [rewrite integral_0 by auto; ring|].
  intros q _. apply sum_0. intros k Hk. unfold value. rewrite sum_0; [ring|]. intros e He. rewrite in_axes_rot by auto. ring.
Qed.
Lemma in_axes_translation t T k a : (k < 3)%nat -> in_axes t (translation T) k a = vec_in_axes t T k.
Proof.
  intros Hk. unfold in_axes, translation, vec_in_axes. destruct t as [t|].
  - apply sum_ext. intros l Hl. replace (k / 3)%nat with 0%nat by (symmetry; apply Nat.div_small; lia). replace (k mod 3)%nat with k by (symmetry; apply Nat.mod_small; lia).
    rewrite Nat.mul_0_r. cbn [Nat.add]. destruct (Nat.ltb_spec l 3); [reflexivity|lia].
  - destruct (Nat.ltb_spec k 3); [reflexivity|lia].
Qed.
Lemma carries_resultant qs t force f f' T : carries n qs t force f f' -> (forall q, In q qs -> sum n (phi q) = 1) ->
  dot6 n (minusf f' f) (translation T) = - integral qs (fun q => sum 3 (fun k => force q k * vec_in_axes t T k)).
Proof.
  intros C HP. rewrite (C (translation T)). f_equal. unfold force_work. apply integral_ext. intros q Hq. apply sum_ext. intros k Hk. f_equal. unfold value.
  rewrite (sum_ext _ _ (fun a => phi q a * vec_in_axes t T k)); [rewrite sum_scal_r, HP by auto; ring|]. intros a _. now rewrite in_axes_translation.
Qed.
Lemma der_carries qs t (force : R -> qpt -> nat -> R) force' (f f0 : dofs) (F : R -> dofs) F' (t0 : R) :
  (forall s, carries n qs t (force s) f (F s)) -> carries n qs t force' f0 F' ->
  (forall q k, In q qs -> (k < 3)%nat -> is_derive (fun s => force s q k) t0 (force' q k)) ->
  forall c a, (c < 6)%nat -> (a < n)%nat -> is_derive (fun s => F s c a) t0 (F' c a - f0 c a).
Proof.
  intros C C' D c a Hc Ha. rewrite (carries_entry _ _ _ _ _ _ _ C' Hc Ha).
  apply (der_fun (fun s => f c a + -1 * force_work n qs t (force s) (unit_dof c a))).
  - intros s. rewrite (carries_entry _ _ _ _ _ _ _ (C s) Hc Ha). ring.
  - eapply der_add; [apply der_cst; reflexivity|eapply der_sc; [|reflexivity]|].
    + unfold force_work. apply (der_int qs (fun s q => sum 3 (fun k => force s q k * value n q (in_axes t (unit_dof c a)) k)) (fun q => sum 3 (fun k => force' q k * value n q (in_axes t (unit_dof c a)) k))). intros q Hq.
      apply der_sum. intros k Hk.
      eapply der_mul; [apply D; auto|apply der_cst; reflexivity|]. ring.
    + unfold force_work. ring.
Qed.
End L.

(** ** selection of loads *)
Section S.
Context {load I : Type}.
Variable kind : load -> bctype.
Lemma apply_all_ok (what : nat -> load -> outcome (I -> R)) rule ls : forall st (d : nat -> load -> I -> R),
  (forall s l, In (s, l) ls -> rule (kind l) <> Refuse /\ (rule (kind l) = Apply -> what s l = Ok (d s l))) ->
  exists st', apply_all load kind I what rule ls st = Ok st' /\
    forall i, st' i = st i + total (fun e => match rule (kind (snd e)) with Apply => d (fst e) (snd e) i | _ => 0 end) ls.
Proof.
  induction ls as [|[s l] ls IH]; intros st d H; cbn [apply_all].
  - exists st. split; [reflexivity|]. intros i. rewrite total_nil. ring.
  - destruct (H s l (or_introl eq_refl)) as [H1 H2]. destruct (rule (kind l)) eqn:E; [| |congruence].
    + rewrite (H2 eq_refl). cbn [bind]. destruct (IH (fun i => st i + d s l i) d) as (st' & K & L); [intros; apply H; now right|].
      exists st'. split; [exact K|]. intros i. rewrite L. rewrite tcons. cbn [fst snd]. rewrite E. ring.
    + destruct (IH st d) as (st' & K & L); [intros; apply H; now right|].
      exists st'. split; [exact K|]. intros i. rewrite L. rewrite tcons. cbn [fst snd]. rewrite E. ring.
Qed.
Lemma apply_all_refuse (what : nat -> load -> outcome (I -> R)) rule ls : forall st s l,
  In (s, l) ls -> rule (kind l) = Refuse -> (forall s l, rule (kind l) = Apply -> exists d, what s l = Ok d) ->
  apply_all load kind I what rule ls st = Fault LibError.
Proof.
  induction ls as [|[s0 l0] ls IH]; intros st s l H E W; [destruct H|]. cbn [apply_all]. destruct H as [H|H].
  - injection H as -> ->. now rewrite E.
  - destruct (rule (kind l0)) eqn:E0; [|eapply IH; eauto|reflexivity]. destruct (W s0 l0 E0) as (d & ->). cbn [bind]. eapply IH; eauto.
Qed.
Lemma total_app {A} (g : A -> R) l m : total g (l ++ m) = total g l + total g m.
Proof. induction l as [|a l IH]; cbn [app]; [rewrite total_nil; ring|]. rewrite !tcons, IH. ring. Qed.
Lemma total_flat {A B} (g : B -> R) (h : A -> list B) l : total g (flat_map h l) = total (fun a => total g (h a)) l.
Proof. induction l as [|a l IH]; cbn [flat_map]; [reflexivity|]. rewrite total_app, tcons, IH. reflexivity. Qed.
Lemma total_map {A B} (g : B -> R) (h : A -> B) l : total g (map h l) = total (fun a => g (h a)) l.
Proof. induction l as [|a l IH]; [reflexivity|]. cbn [map]. rewrite !tcons, IH. reflexivity. Qed.
Lemma total_filter {A} (g : A -> R) p l : total g (filter p l) = total (fun a => if p a then g a else 0) l.
Proof.
  induction l as [|a l IH]; [reflexivity|]. cbn [filter]. rewrite (tcons (fun a => if p a then g a else 0)).
  rewrite <- IH. destruct (p a); [rewrite tcons; reflexivity|ring].
Qed.
Lemma side_total (g : nat -> load -> R) nsides bids bc :
  total (fun e => g (fst e) (snd e)) (side_loads load nsides bids bc) = total_over nsides bids bc g.
Proof.
  unfold side_loads, total_over. rewrite total_flat, total_seq. apply sum_ext. intros s _. rewrite total_flat. apply total_eq. intros id _.
  unfold equal_range. rewrite !total_map, total_filter. reflexivity.
Qed.
Lemma side_in nsides bids (bc : list (nat * load)) s l : In (s, l) (side_loads load nsides bids bc) <-> applies nsides bids bc s l.
Proof.
  unfold side_loads, applies, equal_range. rewrite in_flat_map. split.
  - intros (i & Hi & H). apply in_seq in Hi. apply in_flat_map in H. destruct H as (id & Hid & H). apply in_map_iff in H. destruct H as (l' & E & H). injection E as -> ->.
    split; [lia|]. exists id. split; [exact Hid|]. apply in_map_iff in H. destruct H as ((k, l') & E & H). cbn in E. subst. apply filter_In in H. destruct H as [H K]. cbn in K. apply Nat.eqb_eq in K. now subst.
  - intros (Hs & id & Hid & H). exists s. split; [apply in_seq; lia|]. apply in_flat_map. exists id. split; [exact Hid|]. apply in_map_iff. exists l. split; [reflexivity|].
    apply in_map_iff. exists (id, l). split; [reflexivity|]. apply filter_In. split; [exact H|]. cbn. apply Nat.eqb_refl.
Qed.
End S.
