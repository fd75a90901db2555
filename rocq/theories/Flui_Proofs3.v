(** Proofs about the changes of variables. *)
From Coq Require Import List Arith Bool Reals Lra Lia.
From Verif Require Import Base RBool Stre_Proofs Stre_Proofs2 Flui_Model Flui_Spec Flui_Proofs Flui_Proofs2.
Import ListNotations.
Open Scope R_scope.

Definition dcp_fn (d : nat) (cv : R) (s : prim) : mx := get_ok mx0 (dcons_dprim d cv s).
Definition dpc_fn (d : nat) (cv : R) (s : prim) : mx := get_ok mx0 (dprim_dcons d cv s).
Ltac ev3 := lazy [dcp_fn dpc_fn dcons_dprim dprim_dcons prim_vec flux_fn adv_jac_fn get_ok adv_flux adv_jac adv_jac_sens writes vwrites mput vput W Z1 if3 if2 app Nat.ltb Nat.leb Nat.eqb andb Nat.add Nat.sub mx0 mvec mmul sum bind].
Lemma dcp_safe d cv s : valid_dim d -> dcons_dprim d cv s = Ok (dcp_fn d cv s).
Proof. intros D. dims D; reflexivity. Qed.
Lemma dpc_safe d cv s : valid_dim d -> dprim_dcons d cv s = Ok (dpc_fn d cv s).
Proof. intros D. dims D; reflexivity. Qed.
Lemma dcp_dpc d cp cv s : valid_dim d -> p_rho s <> 0 -> cv <> 0 -> state d cp cv s ->
  identity (2 + d) (mmul (2 + d) (dcp_fn d cv s) (dpc_fn d cv s)) /\ identity (2 + d) (mmul (2 + d) (dpc_fn d cv s) (dcp_fn d cv s)).
Proof.
  intros D RH CV [SK ST SP S2 S3]. unfold identity.
  split; dims D; cbn [Nat.add] in *; intros i j Hi Hj; revert i Hi; below; revert j Hj; below; ev3; try rewrite S3 in * by lia; try rewrite S2 in * by lia;
   rewrite ?SK; try field; auto.
Qed.
Lemma dprim_ok d cp cv sp s0 V q : valid_dim d -> p_rho (sp s0) <> 0 -> cv <> 0 -> state d cp cv (sp s0) -> moves d cp cv sp s0 V q ->
  forall i, (i < 2 + d)%nat -> derivable_pt_lim (fun t => prim_vec d (sp t) i) s0 (mvec (2 + d) (dpc_fn d cv (sp s0)) V i).
Proof.
  intros D RH CV S M. destruct S as [SK ST SP S2 S3]. destruct M as [M1 M2 M3 M4 M5 M6 M7 M8 D1 D2 D3 D4 D5 D6 D7 D8].
  dims D; cbn [Nat.add] in *; below.
  all: ev3; eapply deriv_eq; [|dd]; try rewrite S3 in * by lia; try rewrite S2 in * by lia;
    rewrite ?D8, ?D7, ?D6, ?D5, ?D4, ?D3, ?D2, ?D1, ?SP, ?ST, ?SK; cbn [Nat.ltb Nat.leb]; cbn [Nat.add]; try field; auto.
Qed.
(** The conservative variables as functions of the primitive ones. *)
Lemma dcons_ok d cp cv s q s0 V : valid_dim d -> cv <> 0 -> state d cp cv s -> follows q s0 V -> (forall i, (i < 2 + d)%nat -> q s0 i = prim_vec d s i) ->
  forall i, (i < 2 + d)%nat -> derivable_pt_lim (fun t => cons_of d cv (q t) i) s0 (mvec (2 + d) (dcp_fn d cv s) V i).
Proof.
  intros D CV [SK ST SP S2 S3] F0 E. assert (F : forall i, derivable_pt_lim (fun t => q t i) s0 (V i)) by exact F0. clear F0.
  assert (EE : p_e s = cv * p_T s + p_k s) by (rewrite ST; field; auto).
  assert (E0 := E 0%nat). assert (E1 := E 1%nat). assert (E2 := E 2%nat). assert (E3 := E 3%nat). assert (E4 := E 4%nat). clear E.
  dims D; cbn in E0, E1, E2, E3, E4; (specialize (E0 ltac:(lia)); specialize (E1 ltac:(lia)); try specialize (E2 ltac:(lia)); try specialize (E3 ltac:(lia)); try specialize (E4 ltac:(lia)));
   cbn [Nat.add]; below; unfold cons_of; cbn [Nat.eqb Nat.ltb Nat.leb Nat.add]; ev3; (eapply deriv_eq; [|dd]); try rewrite S3 in * by lia; try rewrite S2 in * by lia; rewrite ?E0, ?E1, ?E2, ?E3, ?E4, ?EE, ?SK; try field.
Qed.
(** ** Sensitivity of the Jacobian *)
Definition ajs_fn (d c : nat) (pv : pvar) (R0 cv : R) (s : prim) : mx := get_ok mx0 (adv_jac_sens d c pv R0 cv s).
Definition pvar_at (d : nat) (i : nat) : pvar := nth i (active d) RHO.
Lemma ajs_safe d c i R0 cv s : valid_dim d -> (c < d)%nat -> (i < 2 + d)%nat -> adv_jac_sens d c (pvar_at d i) R0 cv s = Ok (ajs_fn d c (pvar_at d i) R0 cv s).
Proof. intros D C I. dims D; destruct c as [|[|[|]]]; try lia; cbn [Nat.add] in *; destruct i as [|[|[|[|[|]]]]]; try lia; reflexivity. Qed.
(** Along a family of states: the derivative of an entry of the Jacobian is the sum over the primitive
    variables. *)
Lemma ajs_ok d c cp cv sp s0 V q : valid_dim d -> (c < d)%nat -> p_rho (sp s0) <> 0 -> cv <> 0 ->
  state d cp cv (sp s0) -> moves d cp cv sp s0 V q ->
  forall i j, (i < 2 + d)%nat -> (j < 2 + d)%nat ->
  derivable_pt_lim (fun t => adv_jac_fn d c (cp - cv) cv (cp / cv) (sp t) i j) s0
    (sum (2 + d) (fun v => ajs_fn d c (pvar_at d v) (cp - cv) cv (sp s0) i j * prim_vec d (mkPrim (d_rho q) (d_u1 q) (d_u2 q) (d_u3 q) 0 0 (d_T q) 0 0 0 0 0 0 0) v)).
Proof.
  intros D C RH CV S M. destruct S as [SK ST SP S2 S3]. destruct M as [M1 M2 M3 M4 M5 M6 M7 M8 D1 D2 D3 D4 D5 D6 D7 D8].
  assert (EE : p_e (sp s0) = cv * p_T (sp s0) + p_k (sp s0)) by (rewrite ST; field; auto).
  assert (DE : d_e q = cv * d_T q + d_k q) by (rewrite D7; field; auto).
  dims D; destruct c as [|[|[|]]]; try lia; cbn [Nat.add] in *; intros i j Hi Hj; revert i Hi; below; revert j Hj; below.
  all: unfold ajs_fn, pvar_at; cbn [active app if2 if3 Nat.ltb Nat.leb nth]; ev3; cbn [p_rho p_u1 p_u2 p_u3 p_T]; eapply deriv_eq; [|dd; auto].
  all: try rewrite S3 in * by lia; try rewrite S2 in * by lia;
    rewrite ?DE, ?EE, ?D5, ?SK; cbn [Nat.ltb Nat.leb] in *; rewrite ?D4, ?D3; unfold Rsqr; try field; auto.
Qed.
(** The chain rule of the conservative version. *)
Lemma skip_zero x a b : (if reqb (Rabs x) 0 then a else a + x * b) = a + x * b.
Proof. destruct (reqb (Rabs x) 0) eqn:E; auto. apply reqb_true in E. assert (x = 0) by (destruct (Req_dec x 0); auto; apply Rabs_no_R0 in H; lra). subst. ring. Qed.
Lemma chain_ok d c R0 cv s dp : forall l i jac, (forall v, In v l -> adv_jac_sens d c v R0 cv s = Ok (ajs_fn d c v R0 cv s)) ->
  exists r, chain l i (2 + d) d c R0 cv s dp jac = Ok r /\
    forall v a b, r v a b = jac v a b + sum (length l) (fun k => dp (i + k)%nat v * ajs_fn d c (nth k l RHO) R0 cv s a b).
Proof.
  induction l as [|pv l IH]; intros i jac H; cbn [chain].
  - exists jac. split; auto. intros. cbn. ring.
  - rewrite H by (left; auto). cbn [bind]. destruct (IH (S i) (fun v a b => if reqb (Rabs (dp i v)) 0 then jac v a b else jac v a b + dp i v * ajs_fn d c pv R0 cv s a b)) as (r & E & Q).
    { intros. apply H. right; auto. }
    exists r. split; [exact E|]. intros. rewrite Q, skip_zero. cbn [length].
    assert (SS : forall n f, sum (S n) f = f 0%nat + sum n (fun k => f (S k))).
    { intros n f. induction n; cbn; [ring|]. cbn in IHn. rewrite <- Rplus_assoc, <- IHn. ring. }
    rewrite SS. cbn [nth]. rewrite Nat.add_0_r. rewrite Rplus_assoc. f_equal. f_equal.
    assert (EX : forall n f g, (forall k, f k = g k) -> sum n f = sum n g) by (intros n f g Q1; induction n; cbn; congruence).
    apply EX. intros. rewrite Nat.add_succ_r. reflexivity.
Qed.
Lemma active_length d : valid_dim d -> length (active d) = (2 + d)%nat.
Proof. intros D. dims D; reflexivity. Qed.
Lemma active_safe d c R0 cv s : valid_dim d -> (c < d)%nat -> forall v, In v (active d) -> adv_jac_sens d c v R0 cv s = Ok (ajs_fn d c v R0 cv s).
Proof.
  intros D C v I. destruct (In_nth _ _ RHO I) as (i & L & E). rewrite active_length in L by auto. rewrite <- E. apply (ajs_safe d c i); auto.
Qed.
Lemma ajsc_run d c R0 cv s : valid_dim d -> (c < d)%nat -> exists r, adv_jac_sens_cons d c R0 cv s = Ok r /\
  forall v a b, r v a b = sum (2 + d) (fun k => dpc_fn d cv s k v * ajs_fn d c (pvar_at d k) R0 cv s a b).
Proof.
  intros D C. unfold adv_jac_sens_cons. rewrite dpc_safe by auto. cbn [bind].
  destruct (chain_ok d c R0 cv s (dpc_fn d cv s) (active d) 0 (fun _ => mx0) (active_safe d c R0 cv s D C)) as (r & E & Q).
  exists r. split; auto. intros. rewrite Q, active_length by auto. unfold mx0, pvar_at. cbn [Nat.add]. ring.
Qed.
Lemma sum_ext' n f g : (forall k, (k < n)%nat -> f k = g k) -> sum n f = sum n g.
Proof. induction n; intros H; cbn; auto. rewrite IHn, H; auto; lia. Qed.
Lemma sum_scal' n a f : a * sum n f = sum n (fun k => a * f k).
Proof. induction n; cbn; [ring|]. rewrite Rmult_plus_distr_l, IHn. auto. Qed.
Lemma sum_add' n f g : sum n f + sum n g = sum n (fun k => f k + g k).
Proof. induction n; cbn; [ring|]. rewrite <- IHn. ring. Qed.
Lemma sum_swap' n m f : sum n (fun i => sum m (f i)) = sum m (fun j => sum n (fun i => f i j)).
Proof. induction n; cbn. { induction m; cbn; [auto|]. rewrite <- IHm. ring. } rewrite IHn, sum_add'. auto. Qed.
Lemma prim_move d cp cv sp s0 V q : valid_dim d -> p_rho (sp s0) <> 0 -> cv <> 0 -> state d cp cv (sp s0) -> moves d cp cv sp s0 V q ->
  forall v, (v < 2 + d)%nat -> prim_vec d (mkPrim (d_rho q) (d_u1 q) (d_u2 q) (d_u3 q) 0 0 (d_T q) 0 0 0 0 0 0 0) v = mvec (2 + d) (dpc_fn d cv (sp s0)) V v.
Proof.
  intros D RH CV S M. destruct S as [SK ST SP S2 S3]. destruct M as [M1 M2 M3 M4 M5 M6 M7 M8 D1 D2 D3 D4 D5 D6 D7 D8].
  dims D; cbn [Nat.add] in *; below.
  all: ev3; cbn [p_rho p_u1 p_u2 p_u3 p_T]; try rewrite S3 in * by lia; try rewrite S2 in * by lia;
    rewrite ?D8, ?D7, ?D6, ?D5, ?D4, ?D3, ?D2, ?D1, ?SP, ?ST, ?SK; cbn [Nat.ltb Nat.leb]; cbn [Nat.add]; try field; auto.
Qed.
Lemma ajsc_ok d c cp cv sp s0 V q r : valid_dim d -> (c < d)%nat -> p_rho (sp s0) <> 0 -> cv <> 0 ->
  state d cp cv (sp s0) -> moves d cp cv sp s0 V q -> adv_jac_sens_cons d c (cp - cv) cv (sp s0) = Ok r ->
  forall i j, (i < 2 + d)%nat -> (j < 2 + d)%nat ->
  derivable_pt_lim (fun t => adv_jac_fn d c (cp - cv) cv (cp / cv) (sp t) i j) s0 (sum (2 + d) (fun v => r v i j * V v)).
Proof.
  intros D C RH CV S M E i j Hi Hj. destruct (ajsc_run d c (cp - cv) cv (sp s0) D C) as (r' & E' & Q). rewrite E in E'. injection E' as <-.
  eapply deriv_eq; [|apply (ajs_ok d c cp cv sp s0 V q); auto].
  rewrite (sum_ext' _ _ (fun v => sum (2 + d) (fun k => ajs_fn d c (pvar_at d v) (cp - cv) cv (sp s0) i j * (dpc_fn d cv (sp s0) v k * V k)))).
  2:{ intros v Hv. rewrite (prim_move d cp cv sp s0 V q) by auto. unfold mvec. apply sum_scal'. }
  rewrite sum_swap'. apply sum_ext'. intros v Hv. rewrite Q, Rmult_comm, sum_scal'. apply sum_ext'. intros. ring.
Qed.
