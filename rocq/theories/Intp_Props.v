(** Properties of the interpolation of fields. *)
From Coq Require Import List Reals Lra Lia.
From Verif Require Import Base RBool Intp_Model.
Import ListNotations.
Open Scope R_scope.

(** ** Specification *)
(** Increasing abscissae. *)
Fixpoint increasing (l : table) : Prop :=
  match l with
  | s :: r => match r with s' :: _ => fst s < fst s' | [] => True end /\ increasing r
  | [] => True
  end.
(** [a] and [b] are neighbouring stations. *)
Definition neighbours (l : table) (a b : R * field) : Prop := exists l1 l2, l = l1 ++ a :: b :: l2.
(** The derivative() of a field is the derivative of its value. *)
Definition field_ok (f : field) : Prop := forall th x, derivable_pt_lim (fun u => f_val f u x) th (f_der f th x).

(** ** Proofs *)
Lemma inc_app l1 s l2 : increasing (l1 ++ s :: l2) -> increasing (s :: l2).
Proof. induction l1 as [|a l1 IH]; cbn [app]; auto. intros (_ & H). auto. Qed.
Lemma inc_tail s l t : increasing (s :: l) -> In t l -> fst s < fst t.
Proof.
  revert s. induction l as [|a l IH]; intros s H T; [contradiction|]. destruct H as (H1 & H2). destruct T as [<-|T]; auto.
  specialize (IH a H2 T). lra.
Qed.
Lemma last_cons {A} (l : list A) (a d : A) : l <> [] -> last (a :: l) d = last l d.
Proof. destruct l; [contradiction|auto]. Qed.
Lemma last_in {A} (l : list A) d : l <> [] -> In (last l d) l.
Proof. induction l as [|a l IH]; [contradiction|]. intros _. destruct l; [left; auto|]. right. apply IH. discriminate. Qed.
Lemma last_app_ {A} (l1 l2 : list A) d : l2 <> [] -> last (l1 ++ l2) d = last l2 d.
Proof. induction l1 as [|a l1 IH]; auto. intros H. cbn [app]. rewrite last_cons; auto. destruct l1; cbn; auto. discriminate. Qed.
Lemma last_d {A} (l : list A) d d' : l <> [] -> last l d = last l d'.
Proof. induction l as [|a l IH]; [contradiction|]. intros _. destruct l; auto. apply IH. discriminate. Qed.
Lemma bracket_between l : forall prev a b x, increasing (prev :: l) -> neighbours (prev :: l) a b -> fst a < x <= fst b ->
  bracket prev l x = Some (a, b).
Proof.
  induction l as [|s r IH]; intros prev a b x I (l1 & l2 & E) X.
  - destruct l1 as [|? [|? l1]]; discriminate.
  - cbn. destruct l1 as [|c l1]; cbn in E.
    + injection E as -> -> ->. destruct (rleb x (fst b)) eqn:L; auto. apply rleb_false in L. lra.
    + injection E as <- E. assert (I2 : increasing (s :: r)) by (destruct I; auto).
      assert (L : fst s < x). { rewrite E in I2. destruct l1 as [|c l1]; cbn in E; injection E as <- _; [lra|].
        assert (fst s < fst a); [|lra]. eapply inc_tail; [exact I2|]. apply in_app_iff. right. left. auto. }
      destruct (rleb x (fst s)) eqn:L'; [apply rleb_true in L'; lra|]. apply IH; auto. exists l1, l2. auto.
Qed.
Lemma bracket_found l : forall prev x, increasing (prev :: l) -> fst prev < x -> l <> [] -> x <= fst (last l prev) ->
  exists a b, bracket prev l x = Some (a, b) /\ neighbours (prev :: l) a b /\ fst a < x <= fst b.
Proof.
  induction l as [|s r IH]; intros prev x I P N L; [contradiction|]. cbn [bracket]. destruct (rleb x (fst s)) eqn:E.
  - apply rleb_true in E. exists prev, s. split; auto. split; [exists [], r; auto|lra].
  - apply rleb_false in E. destruct r as [|t r]; [cbn in L; lra|]. destruct (IH s x) as (a & b & B & (l1 & l2 & NB) & X); auto.
    + destruct I; auto.
    + discriminate.
    + rewrite (last_d (t :: r) s prev) by discriminate. exact L.
    + exists a, b. split; auto. split; auto. exists (prev :: l1), l2. cbn. rewrite NB. auto.
Qed.

Lemma interp_interior eo ev l a b x : increasing l -> neighbours l a b -> fst a < x <= fst b -> x < fst (last l a) ->
  interpolate eo ev l x = Ok (ev (snd b) + (x - fst b) / (fst a - fst b) * (ev (snd a) - ev (snd b))).
Proof.
  intros I NB X LT. destruct l as [|s r]; [destruct NB as ([|] & ? & NB); discriminate|]. unfold interpolate.
  assert (F : fst s < x). { destruct NB as (l1 & l2 & E). destruct l1 as [|c l1]; cbn in E; injection E as -> E; [lra|].
    assert (fst c < fst a); [|lra]. eapply inc_tail; [exact I|]. rewrite E. apply in_app_iff. right. left. auto. }
  destruct (rleb x (fst s)) eqn:E1; [apply rleb_true in E1; lra|]. rewrite (last_d (s :: r) s a) by discriminate.
  destruct (rleb (fst (last (s :: r) a)) x) eqn:E2; [apply rleb_true in E2; lra|].
  rewrite (bracket_between _ _ _ _ _ I NB X). auto.
Qed.

(** The value: the first function below the first station, the last above the last one, and the straight
    line between the values of neighbouring stations. *)
Theorem C58_value : forall l th x, increasing l ->
  (forall s r, l = s :: r -> x <= fst s -> interp_value l th x = Ok (f_val (snd s) th x)) /\
  (forall s r, l = r ++ [s] -> fst s <= x -> interp_value l th x = Ok (f_val (snd s) th x)) /\
  (forall a b, neighbours l a b -> fst a <= x <= fst b ->
     interp_value l th x = Ok (f_val (snd a) th x + (x - fst a) / (fst b - fst a) * (f_val (snd b) th x - f_val (snd a) th x))) /\
  (forall s, In s l -> x = fst s -> interp_value l th x = Ok (f_val (snd s) th x)).
Proof.
  intros l th x I.
  assert (A1 : forall s r, l = s :: r -> x <= fst s -> interp_value l th x = Ok (f_val (snd s) th x)).
  { intros s r -> X. unfold interp_value, interpolate. destruct (rleb x (fst s)) eqn:E; auto. apply rleb_false in E. lra. }
  assert (A2 : forall s r, l = r ++ [s] -> fst s <= x -> interp_value l th x = Ok (f_val (snd s) th x)).
  { intros s r E X. destruct r as [|c r]; cbn in E; subst l.
    - unfold interp_value, interpolate. cbn [last]. destruct (rleb x (fst s)) eqn:E; auto. destruct (rleb (fst s) x) eqn:E2; auto. apply rleb_false in E2. lra.
    - unfold interp_value, interpolate. assert (L : last (c :: r ++ [s]) c = s) by (rewrite app_comm_cons, last_last; auto). rewrite L.
      assert (fst c < fst s). { eapply inc_tail; [exact I|]. apply in_app_iff. right. left. auto. }
      destruct (rleb x (fst c)) eqn:E; [apply rleb_true in E; lra|]. destruct (rleb (fst s) x) eqn:E2; auto. apply rleb_false in E2. lra. }
  assert (A4 : forall a b, neighbours l a b -> fst a < x <= fst b -> interp_value l th x = Ok (f_val (snd a) th x + (x - fst a) / (fst b - fst a) * (f_val (snd b) th x - f_val (snd a) th x))).
  { intros a b NB X. assert (NB' := NB). destruct NB' as (l1 & l2 & E). destruct l2 as [|c l2].
    - destruct (Rle_lt_dec (fst b) x) as [Y|Y].
      + rewrite (A2 b (l1 ++ [a])); auto; [|rewrite <- app_assoc; auto]. assert (x = fst b) by lra. replace ((x - fst a) / (fst b - fst a)) with 1 by (rewrite H; field; lra). f_equal. ring.
      + unfold interp_value. rewrite (interp_interior _ _ l a b x); auto; [f_equal; field; lra|]. rewrite E, last_app_ by discriminate. cbn. auto.
    - unfold interp_value. rewrite (interp_interior _ _ l a b x); auto; [f_equal; field; lra|]. rewrite E, last_app_ by discriminate.
      assert (H : In (last (c :: l2) a) (c :: l2)) by (apply last_in; discriminate). 
      assert (I2 : increasing (b :: c :: l2)) by (apply (inc_app (l1 ++ [a])); rewrite <- app_assoc; cbn [app]; rewrite <- E; auto).
      pose proof (inc_tail _ _ _ I2 H). cbn [last] in H0 |- *. lra. }
  assert (A5 : forall s, In s l -> x = fst s -> interp_value l th x = Ok (f_val (snd s) th x)).
  { intros s S X. apply in_split in S. destruct S as (l1 & l2 & E). 
    destruct l1; [|destruct (@exists_last _ (p :: l1)) as (l1' & a & E1); [discriminate|]].
    - apply (A1 s l2); auto. lra.
    - rewrite E1, <- app_assoc in E. cbn in E. assert (I2 : increasing (a :: s :: l2)) by (apply (inc_app l1'); rewrite <- E; auto).
        destruct I2 as (I2 & _). rewrite (A4 a s); [replace ((x - fst a) / (fst s - fst a)) with 1 by (rewrite X; field; lra); f_equal; ring| exists l1', l2; auto|lra]. }
  split; auto. split; auto. split; auto. intros a b NB X. destruct (Rle_lt_dec x (fst a)) as [Y|Y]; [|apply A4; auto; lra].
  assert (NB' := NB). destruct NB' as (l1 & l2 & E). assert (x = fst a) by lra. rewrite (A5 a); auto; [|rewrite E; apply in_app_iff; right; left; auto].
  assert (I2 : increasing (a :: b :: l2)) by (apply (inc_app l1); rewrite <- E; auto). destruct I2.
  replace ((x - fst a) / (fst b - fst a)) with 0 by (rewrite H; field; lra). f_equal. ring.
Qed.

(** So the value lies between those of the neighbouring stations. *)
Theorem C58_between : forall l th x a b, increasing l -> neighbours l a b -> fst a <= x <= fst b ->
  exists v, interp_value l th x = Ok v /\
  Rmin (f_val (snd a) th x) (f_val (snd b) th x) <= v <= Rmax (f_val (snd a) th x) (f_val (snd b) th x).
Proof.
  intros l th x a b I NB X. destruct (C58_value l th x I) as (_ & _ & C & _). eexists. split; [apply C; eauto|].
  assert (W : fst a < fst b). { destruct NB as (l1 & l2 & E). rewrite E in I. apply inc_app in I. destruct I; auto. }
  set (k := (x - fst a) / (fst b - fst a)).
  assert (K : 0 <= k <= 1). { split; [apply Rdiv_le_0_compat || (apply Rmult_le_pos; [lra|left; apply Rinv_0_lt_compat; lra]); lra|].
    unfold k. apply (Rmult_le_reg_r (fst b - fst a)); [lra|]. unfold Rdiv. rewrite Rmult_assoc, Rinv_l; lra. }
  generalize (f_val (snd a) th x) (f_val (snd b) th x). intros p q. unfold Rmin, Rmax. destruct (Rle_dec p q); split; nra.
Qed.

Definition ramp (c : R) : field := mkField (fun th x => th + c * x) (fun _ _ => 1).
Example C58_example : increasing [(0, ramp 1); (1, ramp 2); (3, ramp (-1))] /\ field_ok (ramp 1) /\
  interp_value [(0, ramp 1); (1, ramp 2); (3, ramp (-1))] 5 2 = Ok (6).
Proof.
  split; [cbn; lra|]. split.
  - intros th x. cbn. replace 1 with (1 + 0) by ring. apply derivable_pt_lim_plus; [apply derivable_pt_lim_id|apply derivable_pt_lim_const].
  - destruct (C58_value [(0, ramp 1); (1, ramp 2); (3, ramp (-1))] 5 2) as (_ & _ & C & _); [cbn; lra|].
    rewrite (C (1, ramp 2) (3, ramp (-1))); cbn; [f_equal; field|exists [(0, ramp 1)], []; auto|lra].
Qed.

(** Inside the range derivative() is the derivative of the value with respect to the parameter. *)
Theorem C58_derivative_partial : forall l th x s r, increasing l -> Forall (fun e => field_ok (snd e)) l ->
  l = s :: r -> fst s < x < fst (last l s) ->
  exists v d, (forall u, interp_value l u x = Ok (v u)) /\ interp_derivative l th x = Ok d /\ derivable_pt_lim v th d.
Proof.
  intros l th x s r I F -> X. assert (N : r <> []) by (intros ->; cbn in X; lra).
  rewrite last_cons in X by auto.
  destruct (bracket_found r s x I) as (a & b & _ & NB & Y); auto; try lra.
  assert (W : fst a < fst b) by lra.
  assert (LT : x < fst (last (s :: r) a)) by (rewrite (last_d _ a s), last_cons by (auto; discriminate); lra).
  exists (fun u => f_val (snd b) u x + (x - fst b) / (fst a - fst b) * (f_val (snd a) u x - f_val (snd b) u x)).
  exists (f_der (snd b) th x + (x - fst b) / (fst a - fst b) * (f_der (snd a) th x - f_der (snd b) th x)).
  split; [intros u; unfold interp_value; rewrite (interp_interior _ _ _ a b x); auto|].
  split; [unfold interp_derivative; rewrite (interp_interior _ _ _ a b x); auto|].
  assert (FA : field_ok (snd a) /\ field_ok (snd b)).
  { destruct NB as (l1 & l2 & E). rewrite E in F. apply Forall_app in F. destruct F as (_ & F). inversion F; subst. inversion H2; subst. auto. }
  apply (derivable_pt_lim_plus (fun u => f_val (snd b) u x)); [apply FA|].
  apply (derivable_pt_lim_scal (fun u => f_val (snd a) u x - f_val (snd b) u x)).
  apply (derivable_pt_lim_minus (fun u => f_val (snd a) u x) (fun u => f_val (snd b) u x)); apply FA.
Qed.
(** At and beyond the ends derivative() returns the value. *)
Theorem C58_ends_refuted : exists l th x v, increasing l /\ Forall (fun e => field_ok (snd e)) l /\
  (forall u, interp_value l u x = Ok (v u)) /\
  forall d, derivable_pt_lim v th d -> interp_derivative l th x <> Ok d.
Proof.
  set (c := mkField (fun _ _ => 1) (fun _ _ => 0)). exists [(0, c)], 0, 0, (fun _ => 1).
  assert (V : forall a b th, interpolate (fun f => f_val f th 0) b [(0, c)] 0 = Ok (f_val (snd (0, c)) a 0)).
  { intros. unfold interpolate. cbn [fst]. destruct (rleb 0 0) eqn:E; auto. apply rleb_false in E. lra. }
  split; [cbn; auto|]. split; [constructor; [|constructor]; intros th x; cbn; apply derivable_pt_lim_const|].
  split; [intros u; apply (V 0)|]. intros d D. unfold interp_derivative. rewrite (V 0). cbn. intros E. injection E as E.
  assert (d = 0) by (eapply uniqueness_limite; [exact D|apply derivable_pt_lim_const]). lra.
Qed.
(** The section offset is half the scaled dimension, and its derivative the derivative. *)
Theorem C58_offset : forall dim scale th x, field_ok dim ->
  offset_value dim scale th x = scale * f_val dim th x / 2 /\
  derivable_pt_lim (fun u => offset_value dim scale u x) th (offset_derivative dim scale th x).
Proof.
  intros dim scale th x F. unfold offset_value, offset_derivative. split; [field|].
  replace (f_der dim th x * (1 / 2 * scale)) with (f_der dim th x * (1 / 2 * scale) + f_val dim th x * 0) by ring.
  apply (derivable_pt_lim_mult (fun u => f_val dim u x) (fun _ => 1 / 2 * scale)); [apply F|apply derivable_pt_lim_const].
Qed.

Print Assumptions C58_value.
Print Assumptions C58_between.
Print Assumptions C58_derivative_partial.
Print Assumptions C58_ends_refuted.
Print Assumptions C58_offset.
