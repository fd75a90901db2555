(** Proofs about the flow element: the derivative of the interior residual. *)
From Coq Require Import Reals.
From Coquelicot Require Import Coquelicot.
From Coq Require Import List Arith Bool Lra Lia.
From Verif Require Import Base BaseLemmas RBool Stre_Proofs Stre_Proofs2 Flui_Model Flui_Spec Flui_Proofs Flui_Proofs2 Flui_Proofs3 Flui_Proofs5 Flui_Proofs6 Flui_Props Heat_Proofs Sens_Proofs2 Cfe_Model Cfe_Spec Cfe_Proofs Cfe_Proofs2.
Import ListNotations.
Open Scope R_scope.

Section Der.
Variables (d : nat) (cp cv : R) (nphi : nat).
Hypothesis D : valid_dim d.
Hypothesis G : 0 < cv < cp.
Let st := state_at d cp cv nphi.
Let A := Afn d cp cv.
Let Sn := Sfn d cp cv.
Let n1 := nun d.

Lemma der_fe_U q X t0 V v : moving X t0 V -> is_derive (fun t => fe_U nphi q (X t) v) t0 (fe_U nphi q V v).
Proof. intros M. unfold fe_U. apply (der_sum nphi (fun a t => fq_N q a * X t v a) (fun a => fq_N q a * V v a)). intros a Ha. apply der_scal, M. Qed.
Lemma der_fe_dU q X t0 V c v : moving X t0 V -> is_derive (fun t => fe_dU nphi q (X t) c v) t0 (fe_dU nphi q V c v).
Proof. intros M. unfold fe_dU. apply (der_sum nphi (fun a t => fq_dN q c a * X t v a) (fun a => fq_dN q c a * V v a)). intros a Ha. apply der_scal, M. Qed.
Lemma fe_follows q X t0 V : moving X t0 V -> follows (fun t => fe_U nphi q (X t)) t0 (fe_U nphi q V).
Proof. intros M i. apply is_derive_Reals. apply der_fe_U; auto. Qed.
Lemma fe_moves q X t0 V : moving X t0 V -> good d cp cv nphi (X t0) q ->
  p_rho (st (X t0) q) <> 0 /\ state d cp cv (st (X t0) q) /\
  moves d cp cv (fun t => st (X t) q) t0 (fe_U nphi q V) (pert_of d cp cv false (st (X t0) q) (fe_U nphi q V)).
Proof.
  intros M K. destruct (good_facts d cp cv nphi G (X t0) q K) as (R1 & T1 & _). fold st in R1, T1.
  assert (H : p_rho (st (X t0) q) <> 0) by (apply Rgt_not_eq; exact R1).
  split; auto. split; [apply (state_of d cp cv false)|].
  apply (moves_of d cp cv false (fun t => fe_U nphi q (X t))); auto; [apply fe_follows; auto|lra].
Qed.
Lemma der_flux q X t0 V c v : moving X t0 V -> good d cp cv nphi (X t0) q -> (c < d)%nat -> (v < n1)%nat ->
  is_derive (fun t => flux_fn d c (st (X t) q) v) t0 (mvec n1 (A (st (X t0) q) c) (fe_U nphi q V) v).
Proof.
  intros M K C Hv. destruct (fe_moves q X t0 V M K) as (R & S & MV). apply is_derive_Reals.
  unfold n1, A, Afn. rewrite nun_2. unfold n1 in Hv. rewrite nun_2 in Hv.
  apply (adv_jac_ok d c cp cv (fun t => st (X t) q) t0 (fe_U nphi q V) _ D C R ltac:(lra) S MV v Hv).
Qed.
Lemma der_A q X t0 V c i j : moving X t0 V -> good d cp cv nphi (X t0) q -> (c < d)%nat -> (i < n1)%nat -> (j < n1)%nat ->
  is_derive (fun t => A (st (X t) q) c i j) t0 (sum n1 (fun v => Sn (st (X t0) q) c v i j * fe_U nphi q V v)).
Proof.
  intros M K C Hi Hj. destruct (fe_moves q X t0 V M K) as (R & S & MV). apply is_derive_Reals.
  unfold n1, A, Afn. rewrite nun_2. unfold n1 in Hi, Hj. rewrite nun_2 in Hi, Hj.
  apply (ajsc_ok d c cp cv (fun t => st (X t) q) t0 (fe_U nphi q V) _ (Sn (st (X t0) q) c) D C R ltac:(lra) S MV); auto.
  apply sens_safe; auto.
Qed.
Lemma der_mvec n (M : R -> mx) (x : R -> vec) (dM : mx) (dx : vec) t0 i : (forall j, (j < n)%nat -> is_derive (fun t => M t i j) t0 (dM i j)) ->
  (forall j, (j < n)%nat -> is_derive (fun t => x t j) t0 (dx j)) ->
  is_derive (fun t => mvec n (M t) (x t) i) t0 (mvec n dM (x t0) i + mvec n (M t0) dx i).
Proof.
  intros H K. unfold mvec. rewrite <- sum_plus. apply (der_sum n (fun k t => M t i k * x t k)). intros k Hk.
  apply (der_mult (fun t => M t i k) (fun t => x t k)); auto.
Qed.

Lemma mvec_plus n M x y i : mvec n M (fun k => x k + y k) i = mvec n M x i + mvec n M y i.
Proof. unfold mvec. rewrite <- sum_plus. apply sum_ext. intros. ring. Qed.
(** The product of the least-squares operator with a vector. *)
Lemma ls_mul q AA tau r v a : sum n1 (fun i => ls_op d q AA tau i v a * r i) = sum d (fun c => fq_dN q c a * mvec n1 (AA c) (mvec n1 tau r) v).
Proof.
  unfold ls_op, mvec. fold n1.
  rewrite (sum_ext _ _ (fun i => sum n1 (fun k => sum d (fun c => fq_dN q c a * (AA c v k * (tau k i * r i)))))).
  2:{ intros i Hi. rewrite <- sum_scal_r. apply sum_ext. intros k Hk. rewrite <- sum_scal_l, <- sum_scal_r. apply sum_ext. intros c Hc. ring. }
  rewrite sum_swap. rewrite (sum_ext _ _ (fun k => sum d (fun c => fq_dN q c a * (AA c v k * sum n1 (fun i => tau k i * r i))))).
  2:{ intros k Hk. rewrite sum_swap. apply sum_ext. intros c Hc. rewrite !sum_scal_l. reflexivity. }
  rewrite sum_swap. apply sum_ext. intros c Hc. rewrite sum_scal_l. reflexivity.
Qed.
(** The derivative of the matrices A along the family. *)
Definition dA (s : prim) (u : vec) (c : nat) : mx := fun i j => sum n1 (fun v => Sn s c v i j * u v).
Definition dres (q : fpt) (x V : evec) (s : prim) : vec :=
  fun i => sum d (fun c => mvec n1 (dA s (fe_U nphi q V) c) (fe_dU nphi q x c) i + mvec n1 (A s c) (fe_dU nphi q V c) i).
Lemma der_res q X t0 V i : moving X t0 V -> good d cp cv nphi (X t0) q -> (i < n1)%nat ->
  is_derive (fun t => res_at d cp cv nphi q (X t) (st (X t) q) i) t0 (dres q (X t0) V (st (X t0) q) i).
Proof.
  intros M K Hi. unfold res_at, dres. fold n1.
  apply (der_sum d (fun c t => mvec n1 (A (st (X t) q) c) (fe_dU nphi q (X t) c) i)). intros c Hc.
  apply (der_mvec n1 (fun t => A (st (X t) q) c) (fun t => fe_dU nphi q (X t) c)).
  - intros j Hj. apply der_A; auto.
  - intros j Hj. apply der_fe_dU; auto.
Qed.
(** Times the element vector. *)
Lemma emul_1 (h : nat -> R) (N : nat -> R) (V : evec) : sum n1 (fun v' => sum nphi (fun a' => h v' * N a' * V v' a')) = sum n1 (fun v' => h v' * sum nphi (fun a' => N a' * V v' a')).
Proof. apply sum_ext. intros v' _. rewrite <- sum_scal_l. apply sum_ext. intros. ring. Qed.
Lemma emul_plus (J K : emat) V v a : emul d nphi (fun v a v' a' => J v a v' a' + K v a v' a') V v a = emul d nphi J V v a + emul d nphi K V v a.
Proof.
  unfold emul. rewrite <- sum_plus. apply sum_ext. intros v' _. rewrite <- sum_plus. apply sum_ext. intros. ring.
Qed.
Lemma emul_scal c (J : emat) V v a : emul d nphi (fun v a v' a' => c * J v a v' a') V v a = c * emul d nphi J V v a.
Proof.
  unfold emul. rewrite <- sum_scal_l. apply sum_ext. intros v' _. rewrite <- sum_scal_l. apply sum_ext. intros. ring.
Qed.
Lemma emul_sum m (J : nat -> emat) V v a : emul d nphi (fun v a v' a' => sum m (fun k => J k v a v' a')) V v a = sum m (fun k => emul d nphi (J k) V v a).
Proof.
  unfold emul. rewrite (sum_ext _ _ (fun v' => sum m (fun k => sum nphi (fun a' => J k v a v' a' * V v' a')))).
  - apply sum_swap.
  - intros v' _. rewrite <- sum_swap. apply sum_ext. intros a' _. rewrite sum_scal_r. reflexivity.
Qed.
Lemma emul_tot {X} (J : X -> emat) l V v a : emul d nphi (fun v a v' a' => tot (fun x => J x v a v' a') l) V v a = tot (fun x => emul d nphi (J x) V v a) l.
Proof.
  induction l; cbn [tot].
  - unfold emul. apply sum_0. intros. apply sum_0. intros. ring.
  - rewrite emul_plus, IHl. reflexivity.
Qed.
Lemma emul_ext (J K : emat) V v a : (forall v' a', J v a v' a' = K v a v' a') -> emul d nphi J V v a = emul d nphi K V v a.
Proof. intros H. unfold emul. apply sum_ext. intros. apply sum_ext. intros. rewrite H. reflexivity. Qed.
(** A matrix made of a column per unknown times shape functions. *)
Lemma emul_col (g : nat -> nat -> nat -> R) (N : nat -> R) V v a :
  emul d nphi (fun v a v' a' => g v a v' * N a') V v a = sum n1 (fun v' => g v a v' * sum nphi (fun a' => N a' * V v' a')).
Proof. unfold emul. fold n1. apply (emul_1 (g v a)). Qed.

Lemma emul_vol tau dc x V q s v a : (v < n1)%nat ->
  emul d nphi (vol_j d cp cv nphi tau dc x q s) V v a =
    sum d (fun c => - (fq_w q * (fq_dN q c a * mvec n1 (A s c) (fe_U nphi q V) v)) + fq_w q * dc c * (fq_dN q c a * fe_dU nphi q V c v))
    + fq_w q * sum d (fun c => fq_dN q c a * (mvec n1 (A s c) (mvec n1 tau (dres q x V s)) v + mvec n1 (dA s (fe_U nphi q V) c) (mvec n1 tau (res_at d cp cv nphi q x s)) v)).
Proof.
  intros Hv. unfold vol_j. rewrite !emul_plus, !emul_scal. rewrite !emul_sum.
  assert (E1 : sum d (fun k => emul d nphi (fun v a v' a' => - (fq_w q * (fq_dN q k a * Afn d cp cv s k v v' * fq_N q a')) + fq_w q * dc k * (if Nat.eqb v v' then fq_dN q k a * fq_dN q k a' else 0)) V v a)
    = sum d (fun c => - (fq_w q * (fq_dN q c a * mvec n1 (A s c) (fe_U nphi q V) v)) + fq_w q * dc c * (fq_dN q c a * fe_dU nphi q V c v))).
  { apply sum_ext. intros c Hc. rewrite emul_plus. f_equal.
    - rewrite (emul_ext _ (fun v a v' a' => (- fq_w q * fq_dN q c a * Afn d cp cv s c v v') * fq_N q a')) by (intros; ring).
      rewrite (emul_col (fun v a v' => - fq_w q * fq_dN q c a * Afn d cp cv s c v v')). unfold mvec, fe_U. fold (A s c).
      rewrite <- Ropp_mult_distr_l_reverse. rewrite <- !sum_scal_l. apply sum_ext. intros v' _. fold (A s). ring_simplify. ring.
    - rewrite emul_scal. f_equal. unfold emul. fold n1. rewrite (sum_single n1 v) by first [exact Hv | intros k Hk Nk; apply sum_0; intros; destruct (Nat.eqb_spec v k); [congruence|ring]].
      rewrite Nat.eqb_refl. unfold fe_dU. rewrite <- sum_scal_l. apply sum_ext. intros. ring. }
  rewrite E1. clear E1. rewrite !Rplus_assoc. f_equal. rewrite <- !Rmult_plus_distr_l. f_equal.
  (* the parts of the stabilisation *)
  set (L := fun i => ls_op d q (Afn d cp cv s) tau i v a).
  assert (E2 : sum (nun d) (fun k => emul d nphi (fun v a v' a' => ls_op d q (Afn d cp cv s) tau k v a * sum d (fun c => Afn d cp cv s c k v' * fq_dN q c a')) V v a)
    = sum n1 (fun i => L i * sum d (fun c => mvec n1 (A s c) (fe_dU nphi q V c) i))).
  { apply sum_ext. intros i Hi. unfold L.
    rewrite (emul_ext _ (fun v a v' a' => sum d (fun c => (ls_op d q (Afn d cp cv s) tau i v a * Afn d cp cv s c i v') * fq_dN q c a'))).
    2:{ intros. rewrite <- sum_scal_l. apply sum_ext. intros. ring. }
    rewrite emul_sum. rewrite <- sum_scal_l. apply sum_ext. intros c Hc.
    rewrite (emul_col (fun v a v' => ls_op d q (Afn d cp cv s) tau i v a * Afn d cp cv s c i v')). unfold mvec, fe_dU. rewrite <- sum_scal_l. apply sum_ext. intros. fold (A s). ring. }
  assert (E3 : sum (nun d) (fun k => emul d nphi (fun v a v' a' => ls_op d q (Afn d cp cv s) tau k v a * a_sens d nphi q (Sfn d cp cv s) x k v' a') V v a)
    = sum n1 (fun i => L i * sum d (fun c => mvec n1 (dA s (fe_U nphi q V) c) (fe_dU nphi q x c) i))).
  { apply sum_ext. intros i Hi. unfold L, a_sens.
    rewrite (emul_ext _ (fun v a v' a' => sum d (fun c => (ls_op d q (Afn d cp cv s) tau i v a * mvec (nun d) (Sfn d cp cv s c v') (fe_dU nphi q x c) i) * fq_N q a'))).
    2:{ intros. rewrite <- sum_scal_l. apply sum_ext. intros. ring. }
    rewrite emul_sum. rewrite <- sum_scal_l. apply sum_ext. intros c Hc.
    rewrite (emul_col (fun v a v' => ls_op d q (Afn d cp cv s) tau i v a * mvec (nun d) (Sfn d cp cv s c v') (fe_dU nphi q x c) i)).
    rewrite (sum_ext _ _ (fun v' => ls_op d q (Afn d cp cv s) tau i v a * sum n1 (fun k => Sn s c v' i k * fe_U nphi q V v' * fe_dU nphi q x c k))).
    2:{ intros v' _. fold (fe_U nphi q V v'). unfold mvec. fold n1. rewrite Rmult_assoc. f_equal. rewrite <- sum_scal_r. apply sum_ext. intros. fold Sn. ring. }
    rewrite sum_scal_l. f_equal. rewrite sum_swap. unfold mvec, dA. apply sum_ext. intros k Hk. rewrite sum_scal_r. reflexivity. }
  assert (E4 : emul d nphi (ls_sens d q (Afn d cp cv s) (Sfn d cp cv s) tau (res_at d cp cv nphi q x s)) V v a
    = sum d (fun c => fq_dN q c a * mvec n1 (dA s (fe_U nphi q V) c) (mvec n1 tau (res_at d cp cv nphi q x s)) v)).
  { unfold ls_sens. rewrite emul_sum. apply sum_ext. intros c Hc.
    set (y := mvec (nun d) tau (res_at d cp cv nphi q x s)).
    rewrite (emul_ext _ (fun v a v' a' => (fq_dN q c a * mvec (nun d) (Sfn d cp cv s c v') y v) * fq_N q a')).
    2:{ intros v' a'. replace (mvec (nun d) (Afn d cp cv s c) (mvec (nun d) mx0 (res_at d cp cv nphi q x s)) v) with 0; [ring|].
        symmetry. apply sum_0. intros k _. unfold mvec at 1. rewrite sum_0; [ring|]. intros. unfold mx0. ring. }
    rewrite (emul_col (fun v a v' => fq_dN q c a * mvec (nun d) (Sfn d cp cv s c v') y v)).
    rewrite (sum_ext _ _ (fun v' => fq_dN q c a * sum n1 (fun k => Sn s c v' v k * fe_U nphi q V v' * y k))).
    2:{ intros v' _. fold (fe_U nphi q V v'). unfold mvec. fold n1. rewrite Rmult_assoc. f_equal. rewrite <- sum_scal_r. apply sum_ext. intros. fold Sn. ring. }
    rewrite sum_scal_l. f_equal. rewrite sum_swap. unfold mvec, dA. apply sum_ext. intros k Hk. rewrite sum_scal_r. reflexivity. }
  rewrite E2, E3, E4. clear E2 E3 E4.
  rewrite <- Rplus_assoc. rewrite <- sum_plus.
  rewrite (sum_ext n1 _ (fun i => L i * dres q x V s i)).
  2:{ intros i Hi. rewrite <- Rmult_plus_distr_l, <- sum_plus. f_equal. unfold dres. apply sum_ext. intros. ring. }
  unfold L. rewrite ls_mul. rewrite <- sum_plus. apply sum_ext. intros c Hc. fold (A s). ring.
Qed.

Lemma der_vol tau_of (dt : mx) (dc : R -> vec) (ddc : vec) X t0 V q v a : moving X t0 V -> good d cp cv nphi (X t0) q -> (v < n1)%nat ->
  (forall i j, (i < n1)%nat -> (j < n1)%nat -> is_derive (fun t => tau_of q (st (X t) q) i j) t0 (dt i j)) ->
  (forall c, (c < d)%nat -> is_derive (fun t => dc t c) t0 (ddc c)) ->
  is_derive (fun t => vol_f d cp cv nphi (tau_of q (st (X t) q)) (dc t) (X t) q (st (X t) q) v a) t0
    (emul d nphi (vol_j d cp cv nphi (tau_of q (st (X t0) q)) (dc t0) (X t0) q (st (X t0) q)) V v a
     + fq_w q * (sum d (fun c => ddc c * (fq_dN q c a * fe_dU nphi q (X t0) c v))
                 + sum d (fun c => fq_dN q c a * mvec n1 (A (st (X t0) q) c) (mvec n1 dt (res_at d cp cv nphi q (X t0) (st (X t0) q))) v))).
Proof.
  intros M K Hv HT HD. rewrite emul_vol by auto. set (s0 := st (X t0) q).
  assert (RE : forall t, fq_w q * sum (nun d) (fun i => ls_op d q (Afn d cp cv (st (X t) q)) (tau_of q (st (X t) q)) i v a * res_at d cp cv nphi q (X t) (st (X t) q) i)
    = fq_w q * sum d (fun c => fq_dN q c a * mvec n1 (A (st (X t) q) c) (mvec n1 (tau_of q (st (X t) q)) (res_at d cp cv nphi q (X t) (st (X t) q))) v)).
  { intros t. f_equal. apply ls_mul. }
  eapply (der_ext (fun t => sum d (fun c => - (fq_w q * (fq_dN q c a * flux_fn d c (st (X t) q) v)) + fq_w q * dc t c * (fq_dN q c a * fe_dU nphi q (X t) c v))
    + fq_w q * sum d (fun c => fq_dN q c a * mvec n1 (A (st (X t) q) c) (mvec n1 (tau_of q (st (X t) q)) (res_at d cp cv nphi q (X t) (st (X t) q))) v))).
  { intros t. unfold vol_f. rewrite RE. reflexivity. }
  2:{ apply der_plus.
    - apply (der_sum d (fun c t => - (fq_w q * (fq_dN q c a * flux_fn d c (st (X t) q) v)) + fq_w q * dc t c * (fq_dN q c a * fe_dU nphi q (X t) c v))
        (fun c => - (fq_w q * (fq_dN q c a * mvec n1 (A s0 c) (fe_U nphi q V) v)) + (fq_w q * ddc c * (fq_dN q c a * fe_dU nphi q (X t0) c v) + fq_w q * dc t0 c * (fq_dN q c a * fe_dU nphi q V c v)))).
      intros c Hc. apply der_plus.
      + apply der_opp, der_scal, der_scal. apply der_flux; auto.
      + apply (der_mult (fun t => fq_w q * dc t c) (fun t => fq_dN q c a * fe_dU nphi q (X t) c v)).
        * apply der_scal; auto.
        * apply der_scal. apply der_fe_dU; auto.
    - apply der_scal. apply (der_sum d (fun c t => fq_dN q c a * mvec n1 (A (st (X t) q) c) (mvec n1 (tau_of q (st (X t) q)) (res_at d cp cv nphi q (X t) (st (X t) q))) v)
        (fun c => fq_dN q c a * (mvec n1 (dA s0 (fe_U nphi q V) c) (mvec n1 (tau_of q s0) (res_at d cp cv nphi q (X t0) s0)) v
                 + mvec n1 (A s0 c) (fun i => mvec n1 dt (res_at d cp cv nphi q (X t0) s0) i + mvec n1 (tau_of q s0) (dres q (X t0) V s0) i) v))).
      intros c Hc. apply der_scal.
      apply (der_mvec n1 (fun t => A (st (X t) q) c) (fun t => mvec n1 (tau_of q (st (X t) q)) (res_at d cp cv nphi q (X t) (st (X t) q)))).
      + intros j Hj. apply der_A; auto.
      + intros j Hj. apply (der_mvec n1 (fun t => tau_of q (st (X t) q)) (fun t => res_at d cp cv nphi q (X t) (st (X t) q))).
        * intros k Hk. apply HT; auto.
        * intros k Hk. apply der_res; auto. }
  rewrite (sum_ext d (fun c => - (fq_w q * (fq_dN q c a * mvec n1 (A s0 c) (fe_U nphi q V) v)) + (fq_w q * ddc c * (fq_dN q c a * fe_dU nphi q (X t0) c v) + fq_w q * dc t0 c * (fq_dN q c a * fe_dU nphi q V c v)))
    (fun c => (- (fq_w q * (fq_dN q c a * mvec n1 (A s0 c) (fe_U nphi q V) v)) + fq_w q * dc t0 c * (fq_dN q c a * fe_dU nphi q V c v)) + fq_w q * (ddc c * (fq_dN q c a * fe_dU nphi q (X t0) c v)))) by (intros; ring).
  rewrite (sum_plus d (fun c => - (fq_w q * (fq_dN q c a * mvec n1 (A s0 c) (fe_U nphi q V) v)) + fq_w q * dc t0 c * (fq_dN q c a * fe_dU nphi q V c v)) (fun c => fq_w q * (ddc c * (fq_dN q c a * fe_dU nphi q (X t0) c v)))).
  rewrite (sum_scal_l d (fq_w q)).
  rewrite (sum_ext d (fun c => fq_dN q c a * (mvec n1 (dA s0 (fe_U nphi q V) c) (mvec n1 (tau_of q s0) (res_at d cp cv nphi q (X t0) s0)) v
                 + mvec n1 (A s0 c) (fun i => mvec n1 dt (res_at d cp cv nphi q (X t0) s0) i + mvec n1 (tau_of q s0) (dres q (X t0) V s0) i) v))
    (fun c => fq_dN q c a * (mvec n1 (A s0 c) (mvec n1 (tau_of q s0) (dres q (X t0) V s0)) v + mvec n1 (dA s0 (fe_U nphi q V) c) (mvec n1 (tau_of q s0) (res_at d cp cv nphi q (X t0) s0)) v)
      + fq_dN q c a * mvec n1 (A s0 c) (mvec n1 dt (res_at d cp cv nphi q (X t0) s0)) v)).
  2:{ intros c Hc. replace (mvec n1 (A s0 c) (fun i => mvec n1 dt (res_at d cp cv nphi q (X t0) s0) i + mvec n1 (tau_of q s0) (dres q (X t0) V s0) i) v)
        with (mvec n1 (A s0 c) (mvec n1 dt (res_at d cp cv nphi q (X t0) s0)) v + mvec n1 (A s0 c) (mvec n1 (tau_of q s0) (dres q (X t0) V s0)) v); [ring|].
      symmetry. apply mvec_plus. }
  rewrite (sum_plus d (fun c => fq_dN q c a * (mvec n1 (A s0 c) (mvec n1 (tau_of q s0) (dres q (X t0) V s0)) v + mvec n1 (dA s0 (fe_U nphi q V) c) (mvec n1 (tau_of q s0) (res_at d cp cv nphi q (X t0) s0)) v))).
  ring.
Qed.
End Der.
