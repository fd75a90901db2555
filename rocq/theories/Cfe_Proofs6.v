(** Proofs about the force on a boundary. *)
From Coq Require Import Reals.
From Coquelicot Require Import Coquelicot.
From Coq Require Import List Arith Bool Lra Lia.
From Verif Require Import Base BaseLemmas RBool Stre_Proofs Stre_Proofs2 Flui_Model Flui_Spec Flui_Proofs Flui_Proofs2 Flui_Proofs3 Flui_Proofs5 Flui_Proofs6 Flui_Props Heat_Proofs Sens_Proofs2 Cfe_Model Cfe_Spec Cfe_Proofs Cfe_Proofs2 Cfe_Proofs3 Cfe_Proofs4 Cfe_Proofs5.
Import ListNotations.
Open Scope R_scope.

Section Force.
Variables (d : nat) (cp cv : R) (nphi : nat).
Hypothesis D : valid_dim d.
Hypothesis G : 0 < cv < cp.
Let st := state_at d cp cv nphi.
Let dpx x q := dpx_fn d (cp - cv) cv (st x q).
Lemma force_step_ok x q acc : good d cp cv nphi x q -> exists f g, force_step d cp cv nphi x q acc = Ok (f, g) /\
  (forall i, f i = fst acc i + (if Nat.ltb i d then fq_w q * p_p (st x q) * fq_n q i else 0)) /\
  (forall i v a, g i v a = snd acc i v a + (if Nat.ltb i d then fq_w q * (fq_N q a * dpx x q v) * fq_n q i else 0)).
Proof.
  intros K. unfold force_step. rewrite K. cbn [bind]. rewrite dpx_safe by auto. cbn [bind]. do 2 eexists. split; [reflexivity|].
  split; intros; destruct (Nat.ltb i d); fold st; unfold dpx; ring.
Qed.
Lemma force_step_inv x q acc r : force_step d cp cv nphi x q acc = Ok r -> good d cp cv nphi x q.
Proof.
  unfold force_step, good. destruct (prim_init d cp cv false (fe_U nphi q x)) as [s|] eqn:E; [|discriminate]. intros _.
  destruct (prim_init_ok _ _ _ _ _ _ G E) as (-> & _). reflexivity.
Qed.
Definition Fvec (x : evec) (qs : list fpt) (i : nat) : R := if Nat.ltb i d then tot (fun q => fq_w q * p_p (st x q) * fq_n q i) qs else 0.
Definition Gvec (x : evec) (qs : list fpt) (i v a : nat) : R := if Nat.ltb i d then tot (fun q => fq_w q * (fq_N q a * dpx x q v) * fq_n q i) qs else 0.
Lemma sif_ok x qs : forall acc, (forall q, In q qs -> good d cp cv nphi x q) -> exists f g, side_integrated_force d cp cv nphi x qs acc = Ok (f, g) /\
  (forall i, f i = fst acc i + Fvec x qs i) /\ (forall i v a, g i v a = snd acc i v a + Gvec x qs i v a).
Proof.
  unfold side_integrated_force, Fvec, Gvec. induction qs as [|q qs IH]; intros acc H; cbn [over tot].
  - destruct acc as [f g]. exists f, g. split; auto. cbn [fst snd]. split; intros; destruct (Nat.ltb i d); ring.
  - destruct (force_step_ok x q acc (H q (or_introl eq_refl))) as (f & g & E & A & B). rewrite E. cbn [bind].
    destruct (IH (f, g)) as (f' & g' & E' & A' & B'); [intros; apply H; right; auto|]. exists f', g'. split; auto. cbn [fst snd] in *.
    split; intros; [rewrite A', A|rewrite B', B]; destruct (Nat.ltb i d); ring.
Qed.
Lemma sif_inv x qs : forall acc r, side_integrated_force d cp cv nphi x qs acc = Ok r -> forall q, In q qs -> good d cp cv nphi x q.
Proof.
  unfold side_integrated_force. induction qs as [|q qs IH]; intros acc r H q' []; cbn [over] in H.
  - subst. destruct (force_step d cp cv nphi x q' acc) eqn:E; [|discriminate]. eapply force_step_inv; eauto.
  - destruct (force_step d cp cv nphi x q acc) eqn:E; [|discriminate]. cbn [bind] in H. eapply IH; eauto.
Qed.
Lemma sifs_ok x xs qs : forall df, (forall q, In q qs -> good d cp cv nphi x q) -> exists f, side_integrated_force_sensitivity d cp cv nphi x xs qs df = Ok f /\
  (forall i, f i = df i + if Nat.ltb i d then tot (fun q => fq_w q * d_p (pert_of d cp cv false (st x q) (fe_U nphi q xs)) * fq_n q i) qs else 0).
Proof.
  unfold side_integrated_force_sensitivity. induction qs as [|q qs IH]; intros df H; cbn [over tot].
  - exists df. split; auto. intros; destruct (Nat.ltb i d); ring.
  - unfold force_sens_step at 1. rewrite (H q (or_introl eq_refl)). cbn [bind].
    match goal with |- context [over _ qs ?g] => destruct (IH g) as (f' & E' & A'); [intros; apply H; right; auto|] end. exists f'. split; auto.
    intros; rewrite A'. fold st. destruct (Nat.ltb i d); ring.
Qed.
Lemma sifs_inv x xs qs : forall df r, side_integrated_force_sensitivity d cp cv nphi x xs qs df = Ok r -> forall q, In q qs -> good d cp cv nphi x q.
Proof.
  unfold side_integrated_force_sensitivity. induction qs as [|q qs IH]; intros acc r H q' []; cbn [over] in H.
  - subst. unfold force_sens_step at 1 in H. destruct (prim_init d cp cv false (fe_U nphi q' x)) as [s|] eqn:E; [|discriminate].
    destruct (prim_init_ok _ _ _ _ _ _ G E) as (-> & _). exact E.
  - destruct (force_sens_step d cp cv nphi x xs q acc) eqn:E; [|discriminate]. cbn [bind] in H. eapply IH; eauto.
Qed.
(** The sides in the order of the loop, each with what the earlier ones left in the vector. *)
Fixpoint running (h : list fpt -> R) (base : R) (sides : list (list fpt * bool)) : R :=
  match sides with
  | [] => 0
  | (qs, true) :: t => base + h qs + running h (base + h qs) t
  | (_, false) :: t => running h base t
  end.
Definition part_ok (x : evec) (sides : list (list fpt * bool)) : Prop := forall qs q, In (qs, true) sides -> In q qs -> good d cp cv nphi x q.
Lemma dot3_plus a b n : dot3 (fun i => a i + b i) n = dot3 a n + dot3 b n.
Proof. unfold dot3. cbn. ring. Qed.
Lemma dot3_ext a b n : (forall i, a i = b i) -> dot3 a n = dot3 b n.
Proof. intros H. unfold dot3. apply sum_ext. intros. rewrite H. reflexivity. Qed.
Lemma eval_loop n x sides : forall f g s, part_ok x sides ->
  exists f' g', over (fun (sd : list fpt * bool) (acc : (vec * (nat -> evec)) * R) =>
         if snd sd then f <- side_integrated_force d cp cv nphi x (fst sd) (fst acc) ;; Ok (f, snd acc + dot3 (fst f) n) else Ok acc)
       sides ((f, g), s) = Ok ((f', g'), s + running (fun qs => dot3 (Fvec x qs) n) (dot3 f n) sides).
Proof.
  induction sides as [|[qs b] t IH]; intros f g s OK; cbn [over running].
  - exists f, g. rewrite Rplus_0_r. reflexivity.
  - cbn [fst snd]. destruct b.
    + destruct (sif_ok x qs (f, g)) as (f1 & g1 & E & A & B); [intros; eapply OK; [left; reflexivity|auto]|]. rewrite E. cbn [bind fst snd].
      destruct (IH f1 g1 (s + dot3 f1 n)) as (f' & g' & E'); [intros qs' q I J; eapply OK; [right; exact I|auto]|].
      exists f', g'. rewrite E'. f_equal. f_equal. cbn [fst] in A. rewrite (dot3_ext f1 _ n A), dot3_plus. ring.
    + cbn [bind]. apply IH. intros qs' q I J. eapply OK; [right; exact I|auto].
Qed.
Lemma eval_need n x sides : forall acc r, over (fun (sd : list fpt * bool) (acc : (vec * (nat -> evec)) * R) =>
         if snd sd then f <- side_integrated_force d cp cv nphi x (fst sd) (fst acc) ;; Ok (f, snd acc + dot3 (fst f) n) else Ok acc)
       sides acc = Ok r -> part_ok x sides.
Proof.
  induction sides as [|[qs b] t IH]; intros acc r H qs' q []; cbn [over fst snd] in H.
  - injection H0 as -> ->. destruct (side_integrated_force d cp cv nphi x qs' (fst acc)) eqn:E; [|discriminate]. intros J. eapply sif_inv; eauto.
  - destruct b.
    + destruct (side_integrated_force d cp cv nphi x qs (fst acc)) eqn:E; [|discriminate]. cbn [bind] in H. eapply IH; eauto.
    + cbn [bind] in H. eapply IH; eauto.
Qed.
Lemma evaluate_iff n x sides s r : force_evaluate d cp cv nphi n x sides s = Ok r <->
  part_ok x sides /\ r = s + running (fun qs => dot3 (Fvec x qs) n) 0 sides.
Proof.
  assert (Z : dot3 (fun _ => 0) n = 0) by (unfold dot3; cbn; ring).
  unfold force_evaluate. split.
  - intros H. match goal with H : bind ?o _ = _ |- _ => destruct o as [p|] eqn:E; [|discriminate] end. cbn [bind] in H. injection H as <-.
    assert (OK := eval_need n x sides _ _ E). split; auto.
    destruct (eval_loop n x sides (fun _ => 0) (fun _ => ev0) s OK) as (f' & g' & E'). assert (E2 := eq_trans (eq_sym E') E). injection E2 as <-. cbn [snd]. rewrite Z. reflexivity.
  - intros [OK ->]. destruct (eval_loop n x sides (fun _ => 0) (fun _ => ev0) s OK) as (f' & g' & E'). transitivity (bind (Ok ((f', g'), s + running (fun qs => dot3 (Fvec x qs) n) (dot3 (fun _ => 0) n) sides)) (fun r : (vec * (nat -> evec)) * R => Ok (snd r))).
    + f_equal. exact E'.
    + cbn [bind snd]. rewrite Z. reflexivity.
Qed.
Lemma deriv_loop n x sides v a : forall f g (s : evec), part_ok x sides ->
  exists f' g' s', over (fun (sd : list fpt * bool) (acc : (vec * (nat -> evec)) * evec) =>
         if snd sd then f <- side_integrated_force d cp cv nphi x (fst sd) (fst acc) ;;
                        Ok (f, fun v a => snd acc v a + sum 3 (fun i => n i * snd f i v a)) else Ok acc)
       sides ((f, g), s) = Ok ((f', g'), s') /\ s' v a = s v a + running (fun qs => dot3 (fun i => Gvec x qs i v a) n) (dot3 (fun i => g i v a) n) sides.
Proof.
  induction sides as [|[qs b] t IH]; intros f g s OK; cbn [over running].
  - exists f, g, s. split; auto. ring.
  - cbn [fst snd]. destruct b.
    + destruct (sif_ok x qs (f, g)) as (f1 & g1 & E & A & B); [intros; eapply OK; [left; reflexivity|auto]|]. rewrite E. cbn [bind fst snd].
      destruct (IH f1 g1 (fun v a => s v a + sum 3 (fun i => n i * g1 i v a))) as (f' & g' & s' & E' & Q); [intros qs' q I J; eapply OK; [right; exact I|auto]|].
      exists f', g', s'. split; [exact E'|]. rewrite Q. cbn [snd] in B.
      assert (X1 : dot3 (fun i => g1 i v a) n = dot3 (fun i => g i v a) n + dot3 (fun i => Gvec x qs i v a) n) by (rewrite <- dot3_plus; apply dot3_ext; intros; apply B).
      rewrite X1. replace (sum 3 (fun i => n i * g1 i v a)) with (dot3 (fun i => g1 i v a) n) by (unfold dot3; apply sum_ext; intros; ring). rewrite X1. ring.
    + cbn [bind]. apply IH. intros qs' q I J. eapply OK; [right; exact I|auto].
Qed.
Lemma derivative_ok n x sides s : part_ok x sides -> exists dq, force_derivative d cp cv nphi n x sides s = Ok dq /\
  forall v a, dq v a = s v a + running (fun qs => dot3 (fun i => Gvec x qs i v a) n) 0 sides.
Proof.
  intros OK. assert (Z : dot3 (fun _ => 0) n = 0) by (unfold dot3; cbn; ring). unfold force_derivative.
  destruct (deriv_loop n x sides 0%nat 0%nat (fun _ => 0) (fun _ => ev0) s OK) as (f' & g' & s' & E & _). exists s'. split.
  { transitivity (bind (Ok ((f', g'), s')) (fun r : (vec * (nat -> evec)) * evec => Ok (snd r))); [f_equal; exact E|reflexivity]. }
  intros v a. destruct (deriv_loop n x sides v a (fun _ => 0) (fun _ => ev0) s OK) as (f2 & g2 & s2 & E2 & Q). assert (E3 := eq_trans (eq_sym E) E2). injection E3 as _ _ <-.
  rewrite Q. unfold ev0. rewrite Z. reflexivity.
Qed.
Lemma sens_loop n x xs sides : forall f s, part_ok x sides ->
  exists f', over (fun (sd : list fpt * bool) (acc : vec * R) =>
         if snd sd then f <- side_integrated_force_sensitivity d cp cv nphi x xs (fst sd) (fst acc) ;; Ok (f, snd acc + dot3 f n) else Ok acc)
       sides (f, s) = Ok (f', s + running (fun qs => dot3 (fun i => if Nat.ltb i d then tot (fun q => fq_w q * d_p (pert_of d cp cv false (st x q) (fe_U nphi q xs)) * fq_n q i) qs else 0) n) (dot3 f n) sides).
Proof.
  induction sides as [|[qs b] t IH]; intros f s OK; cbn [over running].
  - exists f. rewrite Rplus_0_r. reflexivity.
  - cbn [fst snd]. destruct b.
    + destruct (sifs_ok x xs qs f) as (f1 & E & A); [intros; eapply OK; [left; reflexivity|auto]|]. rewrite E. cbn [bind fst snd].
      destruct (IH f1 (s + dot3 f1 n)) as (f' & E'); [intros qs' q I J; eapply OK; [right; exact I|auto]|].
      exists f'. rewrite E'. f_equal. f_equal. rewrite (dot3_ext f1 _ n A), dot3_plus. ring.
    + cbn [bind]. apply IH. intros qs' q I J. eapply OK; [right; exact I|auto].
Qed.
Lemma running_der (h : R -> list fpt -> R) (g : list fpt -> R) t0 sides : forall (b : R -> R) db, is_derive b t0 db ->
  (forall qs, In (qs, true) sides -> is_derive (fun t => h t qs) t0 (g qs)) -> is_derive (fun t => running (h t) (b t) sides) t0 (running g db sides).
Proof.
  induction sides as [|[qs p] t IH]; intros b db B H; cbn [running].
  - apply der_const.
  - destruct p.
    + assert (S1 : is_derive (fun t => b t + h t qs) t0 (db + g qs)) by (apply der_plus; [auto|apply H; left; auto]).
      apply (der_plus (fun t => b t + h t qs) (fun u => running (h u) (b u + h u qs) t)); auto. apply (IH (fun t => b t + h t qs)); auto. intros; apply H; right; auto.
    + apply IH; auto. intros; apply H; right; auto.
Qed.
Lemma running_ext h g sides : (forall qs, In (qs, true) sides -> h qs = g qs) -> forall b, running h b sides = running g b sides.
Proof.
  induction sides as [|[qs p] t IH]; intros H b; cbn [running]; auto. destruct p.
  - rewrite (H qs) by (left; auto). rewrite IH by (intros; apply H; right; auto). reflexivity.
  - apply IH. intros; apply H; right; auto.
Qed.
Lemma running_sum m (h : nat -> list fpt -> R) (c : nat -> R) sides : forall (b : nat -> R),
  sum m (fun k => running (h k) (b k) sides * c k) = running (fun qs => sum m (fun k => h k qs * c k)) (sum m (fun k => b k * c k)) sides.
Proof.
  induction sides as [|[qs p] t IH]; intros b; cbn [running].
  - apply sum_0. intros; ring.
  - destruct p; [|apply IH]. rewrite (sum_ext m _ (fun k => (b k * c k + h k qs * c k) + running (h k) (b k + h k qs) t * c k)) by (intros; ring).
    rewrite sum_plus, sum_plus. f_equal. rewrite IH. f_equal. rewrite <- sum_plus. apply sum_ext. intros; ring.
Qed.
(** Every side counts for itself and again for every later side. *)
Lemma running_count h sides : forall b, running h b sides = INR (length (filter snd sides)) * b + running h 0 sides.
Proof.
  induction sides as [|[qs p] t IH]; intros b; cbn [running filter snd].
  - cbn. ring.
  - destruct p; cbn [snd].
    + cbn [length]. rewrite S_INR. rewrite (IH (b + h qs)), (IH (0 + h qs)). ring.
    + apply IH.
Qed.
Lemma p_der X t0 V q : moving X t0 V -> good d cp cv nphi (X t0) q -> is_derive (fun t => p_p (st (X t) q)) t0 (sum (nun d) (fun v => dpx (X t0) q v * fe_U nphi q V v)).
Proof.
  intros M K. destruct (fe_moves d cp cv nphi D G q X t0 V M K) as (RH & S & MV). apply is_derive_Reals. rewrite nun_2.
  apply (dpx_ok d cp cv (fun t => st (X t) q) t0 (fe_U nphi q V) _ D RH ltac:(lra) S MV).
Qed.
Lemma F_der X t0 V qs n : moving X t0 V -> (forall q, In q qs -> good d cp cv nphi (X t0) q) ->
  is_derive (fun t => dot3 (Fvec (X t) qs) n) t0 (sum (nun d) (fun v => sum nphi (fun a => dot3 (fun i => Gvec (X t0) qs i v a) n * V v a))).
Proof.
  intros M K.
  assert (H : forall i, is_derive (fun t => Fvec (X t) qs i) t0 (sum (nun d) (fun v => sum nphi (fun a => Gvec (X t0) qs i v a * V v a)))).
  { intros i. unfold Fvec, Gvec. destruct (Nat.ltb i d).
    - eapply der_to; [|apply (tot_der (fun q t => fq_w q * p_p (st (X t) q) * fq_n q i) (fun q => fq_w q * sum (nun d) (fun v => dpx (X t0) q v * fe_U nphi q V v) * fq_n q i))].
      + rewrite (sum_ext (nun d) _ (fun v => tot (fun q => sum nphi (fun a => fq_w q * (fq_N q a * dpx (X t0) q v) * fq_n q i * V v a)) qs)).
        * rewrite (tot_sum (nun d) (fun q v => sum nphi (fun a => fq_w q * (fq_N q a * dpx (X t0) q v) * fq_n q i * V v a))). apply tot_ext. intros q I.
          rewrite <- sum_scal_l, <- sum_scal_r. apply sum_ext. intros v Hv. unfold fe_U. rewrite <- !sum_scal_l, <- sum_scal_r. apply sum_ext. intros; ring.
        * intros v Hv. rewrite <- (tot_sum nphi (fun q a => fq_w q * (fq_N q a * dpx (X t0) q v) * fq_n q i * V v a)). apply sum_ext. intros a Ha.
          rewrite Rmult_comm, <- tot_scal. apply tot_ext. intros; ring.
      + intros q I. apply (der_ext (fun t => (fq_w q * fq_n q i) * p_p (st (X t) q)) _ _ ((fq_w q * fq_n q i) * sum (nun d) (fun v => dpx (X t0) q v * fe_U nphi q V v))); [intros; ring|ring|].
        apply der_scal. apply p_der; auto.
    - eapply der_to; [|apply der_const]. symmetry. apply sum_0. intros. apply sum_0. intros. ring. }
  unfold dot3. eapply der_to; [|apply (der_sum 3 (fun i t => Fvec (X t) qs i * n i) (fun i => sum (nun d) (fun v => sum nphi (fun a => Gvec (X t0) qs i v a * V v a)) * n i))].
  - rewrite (sum_ext 3 _ (fun i => sum (nun d) (fun v => sum nphi (fun a => Gvec (X t0) qs i v a * V v a * n i)))).
    + rewrite sum_swap. apply sum_ext. intros v Hv. rewrite sum_swap. apply sum_ext. intros a Ha. rewrite <- sum_scal_r. apply sum_ext. intros; ring.
    + intros i Hi. rewrite <- sum_scal_r. apply sum_ext. intros v Hv. rewrite <- sum_scal_r. reflexivity.
  - intros i Hi. apply (der_ext (fun t => n i * Fvec (X t) qs i) _ _ (n i * sum (nun d) (fun v => sum nphi (fun a => Gvec (X t0) qs i v a * V v a)))); [intros; ring|ring|].
    apply der_scal, H.
Qed.
End Force.
