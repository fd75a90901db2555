(** Lemmas on the level-set element: motion of the front. *)
From Coq Require Import Reals Lra Lia FunctionalExtensionality.
From Coquelicot Require Import Coquelicot.
From Coq Require Import List Arith Bool Permutation.
From Verif Require Import Base BaseLemmas RBool Sens_Model Sens_Spec Sens_Proofs2 Heat_Proofs Solid_Proofs2 Lse_Model Lse_Spec Lse_Proofs.
Import ListNotations.
Open Scope R_scope.

Section Front.
Variables (n dim : nat) (prop : bool) (Vn : (nat -> R) -> R -> R) (ref : nat * vec) (time : R).
Let V u q := Vel n dim prop Vn (snd ref) time u q.
Let s u q := Src n dim prop (snd ref) u q.

Lemma vs_ok u q v s' : velocity_and_source n dim prop Vn ref time u q = Ok (v, s') ->
  v = V u q /\ s' = s u q /\ (prop = true -> len dim (grad_q n q u) <> 0) /\ (prop = false -> fst ref = n).
Proof.
  unfold velocity_and_source, V, s, Vel, Src. change (slope n q u) with (grad_q n q u).
  change (interp n q (snd ref)) with (at_q n q (snd ref)). rewrite norm_len. destruct prop.
  - destruct (reqb (len dim (grad_q n q u)) 0) eqn:E; [discriminate|]. apply reqb_false in E. intros [= <- <-].
    split; [|split; [auto|split; [auto|discriminate]]]. apply functional_extensionality. intros j. unfold normal_speed. field. auto.
  - unfold assert_. destruct (fst ref =? n)%nat eqn:F; [|discriminate]. apply Nat.eqb_eq in F.
    destruct (reqb _ 0) eqn:E; [discriminate|]. intros [= <- <-]. split; [|split; [|split; [discriminate|auto]]].
    + apply functional_extensionality. intros j. unfold reinit_speed, smooth_sign. unfold tol.
      destruct (Rlt_dec (/ 1000000) (len dim (grad_q n q u))) as [H|H]; destruct (rltb (/ 1000000) (len dim (grad_q n q u))) eqn:L.
      * rewrite !Rmult_1_r. unfold Rdiv. ring.
      * apply rltb_false in L. lra.
      * apply rltb_true in L. lra.
      * reflexivity.
    + unfold smooth_sign, tol. rewrite !Rmult_1_r. reflexivity.
Qed.
Lemma tau_ok q v t : tau n dim q v = Ok t -> t = upwind n dim q v.
Proof.
  unfold tau, upwind. rewrite norm_len. fold tol. destruct (Rlt_dec tol (len dim v)) as [H|H]; destruct (rltb tol (len dim v)) eqn:L.
  - destruct (reqb _ 0); [discriminate|]. intros [= <-]. rewrite fold_seq. unfold Rdiv. rewrite Rmult_1_l, Rplus_0_l. f_equal.
    apply sum_ext. intros a _. f_equal. apply sum_ext. intros; ring.
  - apply rltb_false in L. lra.
  - apply rltb_true in L. lra.
  - now intros [= <-].
Qed.
Lemma dc_ok q u v : dc_operator n dim q u v = capture n dim q u v.
Proof.
  unfold dc_operator, capture. rewrite fold_seq. fold tol. change (slope n q u) with (grad_q n q u). unfold dotp. do 3 f_equal.
  apply sum_ext. intros; ring.
Qed.
Lemma along_eq q v a : along dim q v a = dotp dim v (ldN q a).
Proof. unfold along, dotp. rewrite fold_seq, Rplus_0_l. apply sum_ext. intros; ring. Qed.
Lemma fold_vec (g : nat -> nat -> R) d : forall f a, fold_left (fun f j => fun a => f a + g j a) (seq 0 d) f a = f a + sum d (fun j => g j a).
Proof.
  induction d as [|d IH]; intros f a; [cbn; ring|]. rewrite seq_S, fold_left_app. cbn. rewrite IH. ring.
Qed.
Lemma fold_mat (g : nat -> nat -> nat -> R) d : forall f a b, fold_left (fun f j => fun a b => f a b + g j a b) (seq 0 d) f a b = f a b + sum d (fun j => g j a b).
Proof.
  induction d as [|d IH]; intros f a b; [cbn; ring|]. rewrite seq_S, fold_left_app. cbn. rewrite IH. ring.
Qed.

Lemma internal_qp_ok u req f jac q f' jac' : internal_qp n dim prop ref time Vn u req (f, jac) q = Ok (f', jac') ->
  (forall a, f' a = f a + lw q * front_term n dim q u (V u q) (s u q) a) /\
  (forall a b, jac' a b = jac a b + (if req then lw q * front_tangent n dim q u (V u q) a b else 0)) /\
  (prop = true -> len dim (grad_q n q u) <> 0).
Proof.
  unfold internal_qp. destruct (velocity_and_source n dim prop Vn ref time u q) as [[v s']|] eqn:E; [|discriminate]. cbn [bind].
  destruct (vs_ok _ _ _ _ E) as (-> & -> & F & _). destruct (tau n dim q (V u q)) as [t|] eqn:T; [|discriminate]. cbn [bind].
  apply tau_ok in T. subst t. rewrite dc_ok, fold_seq, Rplus_0_l. change (slope n q u) with (grad_q n q u).
  change (sum dim (fun j => V u q j * grad_q n q u j)) with (dotp dim (V u q) (grad_q n q u)).
  intros H.
  assert (G : forall a, fold_left (fun (f : vec) j => fun a => f a + lw q * capture n dim q u (V u q) * (ldN q a j * grad_q n q u j)) (seq 0 dim)
     (fun a => f a + lw q * (lN q a * (dotp dim (V u q) (grad_q n q u) - s u q)) +
        lw q * along dim q (V u q) a * upwind n dim q (V u q) * (dotp dim (V u q) (grad_q n q u) - s u q)) a =
     f a + lw q * front_term n dim q u (V u q) (s u q) a).
  { intros a. rewrite (fold_vec (fun j a => lw q * capture n dim q u (V u q) * (ldN q a j * grad_q n q u j))). rewrite along_eq.
    rewrite sum_scal_l. unfold front_term. unfold dotp at 5. unfold dotp. ring. }
  destruct req; injection H as <- <-.
  - split; [exact G|]. split; [|exact F]. intros a b.
    transitivity (fold_left (fun (g : matrix) j => fun a b => g a b + (lw q * V u q j * (lN q a * ldN q b j) + lw q * capture n dim q u (V u q) * (ldN q a j * ldN q b j))) (seq 0 dim) jac a b
       + lw q * along dim q (V u q) a * upwind n dim q (V u q) * along dim q (V u q) b).
    { f_equal. clear G. generalize jac. induction (seq 0 dim) as [|j l IH]; intros g; [reflexivity|]. cbn. rewrite <- IH.
      match goal with |- fold_left ?F ?l ?x a b = fold_left _ _ ?y a b => replace x with y; [reflexivity|] end.
      apply functional_extensionality; intros; apply functional_extensionality; intros; ring. }
    rewrite (fold_mat (fun j a b => lw q * V u q j * (lN q a * ldN q b j) + lw q * capture n dim q u (V u q) * (ldN q a j * ldN q b j))), !along_eq.
    rewrite sum_plus.
    rewrite (sum_ext dim (fun k => lw q * V u q k * (lN q a * ldN q b k)) (fun k => lw q * lN q a * (V u q k * ldN q b k))) by (intros; ring).
    rewrite !sum_scal_l. unfold front_tangent, dotp. ring.
  - split; [exact G|]. split; [intros; ring|exact F].
Qed.
Lemma velocity_qp_ok u ut req f jac q f' jac' : velocity_qp n dim prop ref time Vn u ut req (f, jac) q = Ok (f', jac') ->
  (forall a, f' a = f a + lw q * rate_term n dim q (V u q) (at_q n q ut) a) /\
  (forall a b, jac' a b = jac a b + (if req then lw q * rate_term n dim q (V u q) (lN q b) a else 0)) /\
  (prop = true -> len dim (grad_q n q u) <> 0).
Proof.
  unfold velocity_qp. destruct (velocity_and_source n dim prop Vn ref time u q) as [[v s']|] eqn:E; [|discriminate]. cbn [bind].
  destruct (vs_ok _ _ _ _ E) as (-> & -> & F & _). destruct (tau n dim q (V u q)) as [t|] eqn:T; [|discriminate]. cbn [bind].
  apply tau_ok in T. subst t. change (interp n q ut) with (at_q n q ut).
  destruct req; intros [= <- <-]; split; try split; auto; intros; rewrite ?along_eq; unfold rate_term; ring.
Qed.

Lemma over_rule {S} (P : list lpt -> S -> S -> Prop) body : (forall x, P [] x x) ->
  (forall q qs x y z, body x q = Ok y -> P qs y z -> P (q :: qs) x z) ->
  forall qs x z, over body qs x = Ok z -> P qs x z.
Proof.
  intros H0 H1. induction qs as [|q qs IH]; intros x z H; cbn in H; [injection H as <-; auto|].
  destruct (body x q) as [y|] eqn:E; [|discriminate]. cbn in H. eapply H1; eauto.
Qed.
Lemma int_cons q qs g : integral (q :: qs) g = lw q * g q + integral qs g.
Proof. reflexivity. Qed.
Lemma int_nil g : integral [] g = 0.
Proof. reflexivity. Qed.

Lemma internal_ok qs u req f jac f' jac' : internal_residual n dim prop (Some Vn) ref time qs u req f jac = Ok (f', jac') ->
  (forall a, f' a = f a + integral qs (fun q => front_term n dim q u (V u q) (s u q) a)) /\
  (forall a b, jac' a b = jac a b + (if req then integral qs (fun q => front_tangent n dim q u (V u q) a b) else 0)) /\
  (prop = true -> not_flat n dim qs u).
Proof.
  unfold internal_residual. intros H.
  apply (over_rule (fun qs x z => (forall a, fst z a = fst x a + integral qs (fun q => front_term n dim q u (V u q) (s u q) a)) /\
    (forall a b, snd z a b = snd x a b + (if req then integral qs (fun q => front_tangent n dim q u (V u q) a b) else 0)) /\
    (prop = true -> not_flat n dim qs u))) in H; [exact H| |].
  - intros x. split; [intros; rewrite int_nil; ring|]. split; [intros; destruct req; rewrite ?int_nil; ring|]. intros _ q [].
  - intros q l [x1 x2] [y1 y2] z H1 (A & B & C). apply internal_qp_ok in H1. destruct H1 as (D & E & F). cbn [fst snd] in *. split; [|split].
    + intros a. rewrite A, D, int_cons. ring.
    + intros a b. rewrite B, E. destruct req; rewrite ?int_cons; ring.
    + intros Hp p [<-|Hp']; [auto|now apply C].
Qed.
Lemma velocity_ok qs u ut req f jx jac f' jx' jac' : velocity_residual n dim prop (Some Vn) ref time qs u ut req f jx jac = Ok (f', jx', jac') ->
  (forall a, f' a = f a + integral qs (fun q => rate_term n dim q (V u q) (at_q n q ut) a)) /\
  (forall a b, jx' a b = jx a b + (if req then integral qs (fun q => rate_term n dim q (V u q) (lN q b) a) else 0)) /\
  jac' = jac.
Proof.
  unfold velocity_residual. destruct (over _ _ _) as [[x1 x2]|] eqn:H; [|discriminate]. cbn. intros [= <- <- <-].
  apply (over_rule (fun qs x z => (forall a, fst z a = fst x a + integral qs (fun q => rate_term n dim q (V u q) (at_q n q ut) a)) /\
    (forall a b, snd z a b = snd x a b + (if req then integral qs (fun q => rate_term n dim q (V u q) (lN q b) a) else 0)))) in H.
  - destruct H. auto.
  - intros x. split; [intros; rewrite int_nil; ring|]. intros; destruct req; rewrite ?int_nil; ring.
  - intros q l [a1 a2] [y1 y2] z H1 (A & B). apply velocity_qp_ok in H1. destruct H1 as (D & E & F). cbn [fst snd] in *. split.
    + intros a. rewrite A, D, int_cons. ring.
    + intros a b. rewrite B, E. destruct req; rewrite ?int_cons; ring.
Qed.

(** ** When it runs *)
Lemma grad_expand q u (v : nat -> R) : dotp dim v (grad_q n q u) = sum n (fun a => u a * dotp dim v (ldN q a)).
Proof.
  unfold dotp, grad_q. rewrite (sum_ext n (fun a => u a * sum dim (fun j => v j * ldN q a j)) (fun a => sum dim (fun j => v j * (ldN q a j * u a)))).
  - rewrite sum_swap. apply sum_ext. intros. now rewrite sum_scal_l.
  - intros a _. rewrite <- sum_scal_l. apply sum_ext. intros; ring.
Qed.
Lemma sum_abs_zero m (g : nat -> R) : sum m (fun a => Rabs (g a)) = 0 -> forall a, (a < m)%nat -> g a = 0.
Proof.
  induction m as [|m IH]; intros H a Ha; [lia|]. cbn in H.
  assert (0 <= sum m (fun a => Rabs (g a))) by (apply sum_nonneg; intros; apply Rabs_pos). pose proof (Rabs_pos (g m)).
  destruct (Nat.eq_dec a m) as [->|D]; [|apply IH; [lra|lia]].
  destruct (Req_EM_T (g m) 0); [auto|]. pose proof (Rabs_pos_lt _ n0). lra.
Qed.
(** The stabilisation never divides by zero: the velocity is along the gradient of the field. *)
Lemma tau_runs q u c v : (forall j, v j = c * grad_q n q u j) -> exists t, tau n dim q v = Ok t.
Proof.
  intros Hv. apply functional_extensionality in Hv. subst v. unfold tau. rewrite norm_len, len_scal.
  destruct (rltb tol _) eqn:L; [|eauto]. apply rltb_true in L.
  rewrite fold_seq, Rplus_0_l. destruct (reqb _ 0) eqn:E; [|eauto]. exfalso. apply reqb_true in E.
  assert (Y : dotp dim (fun j => c * grad_q n q u j) (grad_q n q u) = 0).
  { rewrite grad_expand. apply sum_0. intros a Ha. pose proof (sum_abs_zero _ _ E a Ha) as Z. cbn in Z.
    replace (dotp dim (fun j => c * grad_q n q u j) (ldN q a)) with (sum dim (fun j => ldN q a j * (c * grad_q n q u j))); [rewrite Z; ring|].
    apply sum_ext. intros; ring. }
  rewrite dotp_scal_l, len_dotp in Y. pose proof (Rabs_pos c). pose proof (len_nonneg dim (grad_q n q u)).
  assert (T0 : 0 < tol) by (unfold tol; lra).
  apply Rmult_integral in Y. destruct Y as [Y|Y]; [rewrite Y, Rabs_R0, Rmult_0_l in L; lra|].
  apply Rmult_integral in Y. destruct Y as [Y|Y]; rewrite Y, Rmult_0_r in L; lra.
Qed.
Lemma vs_runs u q : (prop = true -> len dim (grad_q n q u) <> 0) -> (prop = false -> fst ref = n) ->
  (prop = false -> at_q n q (snd ref) <> 0 \/ len dim (grad_q n q u) <> 0) ->
  exists v s', velocity_and_source n dim prop Vn ref time u q = Ok (v, s') /\ exists c, forall j, v j = c * grad_q n q u j.
Proof.
  intros A B C. unfold velocity_and_source. change (slope n q u) with (grad_q n q u). change (interp n q (snd ref)) with (at_q n q (snd ref)). rewrite norm_len.
  destruct prop.
  - rewrite (proj2 (reqb_false _ _) (A eq_refl)). do 2 eexists. split; [reflexivity|]. eexists. intros j. apply Rmult_comm.
  - rewrite (B eq_refl), Nat.eqb_refl. unfold assert_. set (r := at_q n q (snd ref)) in *. set (g := len dim (grad_q n q u)) in *.
    assert (P : 0 < r ^ 2 + tol * g ^ 2). { unfold tol. destruct (C eq_refl) as [Z|Z]; nra. }
    rewrite (proj2 (reqb_false _ _)) by (intros Z; apply sqrt_lt_R0 in P; lra).
    do 2 eexists. split; [reflexivity|]. destruct (rltb tol g).
    + exists (r / sqrt (r ^ 2 + tol * g ^ 2) / g). intros j. unfold Rdiv. ring.
    + exists 0. intros; ring.
Qed.
Definition healthy (qs : list lpt) (u : vec) : Prop :=
  (prop = true -> not_flat n dim qs u) /\ (prop = false -> fst ref = n /\ forall q, In q qs -> at_q n q (snd ref) <> 0 \/ len dim (grad_q n q u) <> 0).
Lemma internal_runs qs u req f jac : healthy qs u -> exists f' jac', internal_residual n dim prop (Some Vn) ref time qs u req f jac = Ok (f', jac').
Proof.
  unfold internal_residual. revert f jac. induction qs as [|q qs IH]; intros f jac [A B]; cbn [over]; [eauto|].
  destruct (vs_runs u q) as (v & s' & E & c & Hc); [intros; apply A; cbn; auto|intros; apply B; auto|intros; apply B; cbn; auto|].
  destruct (tau_runs q u c v Hc) as [t T].
  unfold internal_qp at 1. rewrite E. cbn [bind]. rewrite T. cbn [bind]. destruct req; cbn [bind]; apply IH; split; intros;
    try (intros p Hp; apply A; cbn; auto); split; try (apply B; auto); intros; apply B; cbn; auto.
Qed.
Lemma velocity_runs qs u ut req f jx jac : healthy qs u -> exists f' jx', velocity_residual n dim prop (Some Vn) ref time qs u ut req f jx jac = Ok (f', jx', jac).
Proof.
  intros H. unfold velocity_residual.
  assert (G : exists x, over (velocity_qp n dim prop ref time Vn u ut req) qs (f, jx) = Ok x).
  2:{ destruct G as [[x1 x2] ->]. cbn. eauto. }
  revert f jx H. induction qs as [|q qs IH]; intros f jx [A B]; cbn [over]; [eauto|].
  destruct (vs_runs u q) as (v & s' & E & c & Hc); [intros; apply A; cbn; auto|intros; apply B; auto|intros; apply B; cbn; auto|].
  destruct (tau_runs q u c v Hc) as [t T].
  unfold velocity_qp at 1. rewrite E. cbn [bind]. rewrite T. cbn [bind]. destruct req; cbn [bind]; apply IH; split; intros;
    try (intros p Hp; apply A; cbn; auto); split; try (apply B; auto); intros; apply B; cbn; auto.
Qed.
Lemma internal_flat qs u req f jac q : prop = true -> In q qs -> len dim (grad_q n q u) = 0 ->
  exists e, internal_residual n dim prop (Some Vn) ref time qs u req f jac = Fault e.
Proof.
  intros Hp Hq E. destruct (internal_residual n dim prop (Some Vn) ref time qs u req f jac) as [[f' j']|e] eqn:H; [|eauto].
  apply internal_ok in H. destruct H as (_ & _ & F). exfalso. exact (F Hp q Hq E).
Qed.
End Front.

(** ** Sums over the test functions *)
Lemma sum_int n qs g : sum n (fun a => integral qs (g a)) = integral qs (fun q => sum n (fun a => g a q)).
Proof.
  induction qs as [|q qs IH]; [rewrite int_nil; apply sum_0; intros; apply int_nil|]. rewrite int_cons, <- IH.
  rewrite <- sum_scal_l, <- sum_plus. apply sum_ext. intros; apply int_cons.
Qed.
Lemma sum_dotp_l n d (A : nat -> nat -> R) w : sum n (fun a => dotp d (A a) w) = dotp d (fun j => sum n (fun a => A a j)) w.
Proof. unfold dotp. rewrite sum_swap. apply sum_ext. intros. now rewrite sum_scal_r. Qed.
Lemma dotp_zero_l d v w : (forall j, (j < d)%nat -> v j = 0) -> dotp d v w = 0.
Proof. intros H. apply sum_0. intros. rewrite H by auto. ring. Qed.
Lemma sum_test n d q c V (x : R) : partition n d q -> sum n (fun a => (lN q a + c * dotp d V (ldN q a)) * x) = x.
Proof.
  intros [P Q]. rewrite sum_scal_r, sum_plus, sum_scal_l. change (fun k => lN q k) with (lN q). rewrite P.
  rewrite (sum_ext n (fun k => dotp d V (ldN q k)) (fun k => dotp d (ldN q k) V)) by (intros; apply dotp_comm).
  rewrite sum_dotp_l, dotp_zero_l by auto. ring.
Qed.
Lemma sum_front n d q u V s : partition n d q -> sum n (front_term n d q u V s) = dotp d V (grad_q n q u) - s.
Proof.
  intros P. unfold front_term. rewrite sum_plus, (sum_test n d) by auto. rewrite sum_scal_l, sum_dotp_l, (dotp_zero_l d (fun j => sum n (fun a => ldN q a j))) by exact (proj2 P). ring.
Qed.
Lemma sum_tangent n d q u V b : partition n d q -> sum n (fun a => front_tangent n d q u V a b) = dotp d V (ldN q b).
Proof.
  intros P. unfold front_tangent. rewrite sum_plus, (sum_test n d) by auto. rewrite sum_scal_l, sum_dotp_l, (dotp_zero_l d (fun j => sum n (fun a => ldN q a j))) by exact (proj2 P). ring.
Qed.
Lemma sum_rate n d q V r : partition n d q -> sum n (rate_term n d q V r) = r.
Proof. intros P. unfold rate_term. now apply sum_test. Qed.
Lemma tangent_apply n d q u V a v : sum n (fun b => front_tangent n d q u V a b * v b) =
  (lN q a + upwind n d q V * dotp d V (ldN q a)) * dotp d V (grad_q n q v) + capture n d q u V * dotp d (ldN q a) (grad_q n q v).
Proof.
  rewrite !grad_expand. rewrite <- !sum_scal_l, <- sum_plus. apply sum_ext. intros. unfold front_tangent. ring.
Qed.
Lemma rate_apply n d q V a v : sum n (fun b => rate_term n d q V (lN q b) a * v b) = rate_term n d q V (at_q n q v) a.
Proof. unfold rate_term, at_q. rewrite <- sum_scal_l. apply sum_ext. intros; ring. Qed.

(** ** The normal velocity *)
Lemma speed_dot n d s q u w : dotp d (normal_speed n d s q u) w = - s * (dotp d (grad_q n q u) w / len d (grad_q n q u)).
Proof.
  transitivity (dotp d (fun j => - s / len d (grad_q n q u) * grad_q n q u j) w).
  - apply sum_ext. intros. unfold normal_speed, Rdiv. ring.
  - rewrite dotp_scal_l. unfold Rdiv. ring.
Qed.
Lemma speed_grad n d s q u : dotp d (normal_speed n d s q u) (grad_q n q u) = - s * len d (grad_q n q u).
Proof.
  rewrite speed_dot, len_dotp. destruct (Req_EM_T (len d (grad_q n q u)) 0) as [->|N]; [unfold Rdiv; ring|field; auto].
Qed.
(** derivative of the length of the gradient *)
Lemma der_len n d q t0 u du : history n t0 u du -> len d (grad_q n q (u t0)) <> 0 ->
  is_derive (fun t : R => len d (grad_q n q (u t))) t0 (dotp d (grad_q n q (u t0)) (grad_q n q du) / len d (grad_q n q (u t0))).
Proof.
  intros H N. pose proof (len_pos _ _ N) as P.
  assert (D : is_derive (fun t : R => sum d (fun j => grad_q n q (u t) j * grad_q n q (u t) j)) t0
               (sum d (fun j => 2 * (grad_q n q (u t0) j * grad_q n q du j)))).
  { apply (der_sum d (fun j t => grad_q n q (u t) j * grad_q n q (u t) j)). intros j _.
    eapply der_eq; [apply der_mult; apply (der_gradq n q t0 u du j H)|]. cbn. ring. }
  rewrite sum_scal_l in D. unfold len at 1.
  assert (Q : 0 < sum d (fun j => grad_q n q (u t0) j * grad_q n q (u t0) j)) by (rewrite <- len_sq; nra).
  pose proof (is_derive_comp sqrt (fun t : R => sum d (fun j => grad_q n q (u t) j * grad_q n q (u t) j)) t0 _ _
    (proj2 (is_derive_Reals _ _ _) (derivable_pt_lim_sqrt _ Q)) D) as C.
  eapply der_eq; [exact C|]. unfold scal; cbn. unfold mult; cbn. fold (len d (grad_q n q (u t0))). unfold dotp. field. auto.
Qed.
