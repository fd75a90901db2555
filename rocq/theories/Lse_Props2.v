(** C166, C167, C170: motion of the level set and its reinitialisation.  For every element, field, speed,
    reference field and time. *)
From Coq Require Import Reals Lra Lia FunctionalExtensionality.
From Coquelicot Require Import Coquelicot.
From Coq Require Import List Arith Bool Permutation.
From Verif Require Import Base BaseLemmas RBool Sens_Model Sens_Spec Sens_Proofs2 Heat_Proofs Solid_Proofs2 Lse_Model Lse_Spec Lse_Proofs Lse_Proofs2 Lse_Proofs3 Lse_Props.
Import ListNotations.
Open Scope R_scope.

(** ** C166: propagation with a normal speed *)
Section Propagation.
Variables (n dim : nat) (Vn : (nat -> R) -> R -> R) (ref : nat * vec) (time : R).
Notation V u q := (normal_speed n dim (Vn (lx q) time) q u).
Notation residual := (internal_residual n dim true (Some Vn) ref time).
Notation rate := (velocity_residual n dim true (Some Vn) ref time).

(** the element contributes the weighted residual of V . grad phi, streamline upwinded, with the
    discontinuity capturing term *)
Theorem C166_value qs u req f jac f' jac' : residual qs u req f jac = Ok (f', jac') ->
  (forall a, f' a = f a + integral qs (fun q => front_term n dim q u (V u q) 0 a)) /\
  (forall a b, jac' a b = jac a b + (if req then integral qs (fun q => front_tangent n dim q u (V u q) a b) else 0)).
Proof. intros H. apply internal_ok in H. destruct H as (A & B & _). split; [exact A|exact B]. Qed.
(** it succeeds exactly when the field is flat at no quadrature point *)
Theorem C166_runs qs u req f jac : (exists r, residual qs u req f jac = Ok r) <-> not_flat n dim qs u.
Proof.
  split.
  - intros [[f' j'] H]. apply internal_ok in H. now apply H.
  - intros H. destruct (internal_runs n dim true Vn ref time qs u req f jac) as (f' & j' & E); [|eauto].
    split; [auto|discriminate].
Qed.
(** the Jacobian applied to the field is the residual *)
Theorem C166_secant qs u f jac f' jac' : residual qs u true f jac = Ok (f', jac') ->
  forall a, f' a - f a = sum n (fun b => (jac' a b - jac a b) * u b).
Proof.
  intros H a. apply C166_value in H. destruct H as [A B]. rewrite A.
  rewrite (sum_ext n _ (fun b => integral qs (fun q => front_tangent n dim q u (V u q) a b * u b))).
  - rewrite sum_int. replace (f a + _ - f a) with (integral qs (fun q => front_term n dim q u (V u q) 0 a)) by ring.
    apply int_ext. intros q _. rewrite tangent_apply. unfold front_term. ring.
  - intros b _. rewrite B. replace (jac a b + _ - jac a b) with (integral qs (fun q => front_tangent n dim q u (V u q) a b)) by ring.
    rewrite Rmult_comm, <- int_scal. apply int_ext. intros; ring.
Qed.
(** the stabilisation moves nothing in total: the entries add up to the motion with the normal speed *)
Theorem C166_balance qs u req f jac f' jac' : (forall q, In q qs -> partition n dim q) ->
  residual qs u req f jac = Ok (f', jac') ->
  sum n f' - sum n f = integral qs (fun q => - Vn (lx q) time * len dim (grad_q n q u)).
Proof.
  intros P H. apply C166_value in H. destruct H as [A _].
  rewrite (sum_ext n f' (fun a => f a + integral qs (fun q => front_term n dim q u (V u q) 0 a))) by (intros; apply A).
  rewrite sum_plus. change (fun k => f k) with f. replace (sum n f + _ - sum n f) with (sum n (fun a => integral qs (fun q => front_term n dim q u (V u q) 0 a))) by ring.
  rewrite sum_int. apply int_ext. intros q Hq. change (sum n (front_term n dim q u (V u q) 0) = - Vn (lx q) time * len dim (grad_q n q u)).
  rewrite sum_front by auto. rewrite speed_grad. ring.
Qed.
(** the rate term: same weighting, linear in the rate, and its matrix is the exact derivative *)
Theorem C166_rate qs u ut f jx jac f' jx' jac' : rate qs u ut true f jx jac = Ok (f', jx', jac') ->
  (forall a, f' a = f a + integral qs (fun q => rate_term n dim q (V u q) (at_q n q ut) a)) /\
  (forall a, f' a - f a = sum n (fun b => (jx' a b - jx a b) * ut b)) /\ jac' = jac.
Proof.
  intros H. apply velocity_ok in H. destruct H as (A & B & C). split; [exact A|]. split; [|exact C].
  intros a. rewrite A.
  rewrite (sum_ext n _ (fun b => integral qs (fun q => rate_term n dim q (V u q) (lN q b) a * ut b))).
  - rewrite sum_int. replace (f a + _ - f a) with (integral qs (fun q => rate_term n dim q (V u q) (at_q n q ut) a)) by (unfold Vel; ring).
    apply int_ext. intros q _. now rewrite rate_apply.
  - intros b _. rewrite B. replace (jx a b + _ - jx a b) with (integral qs (fun q => rate_term n dim q (V u q) (lN q b) a)) by (unfold Vel; ring).
    rewrite Rmult_comm, <- int_scal. apply int_ext. intros; ring.
Qed.
(** residual and rate together: the field changes so that every level moves with the normal speed, in total *)
Theorem C166_motion qs u ut req f jac f' jac' g jx j g' jx' j' : (forall q, In q qs -> partition n dim q) ->
  residual qs u req f jac = Ok (f', jac') -> rate qs u ut req g jx j = Ok (g', jx', j') ->
  (sum n f' - sum n f) + (sum n g' - sum n g) = integral qs (fun q => at_q n q ut - Vn (lx q) time * len dim (grad_q n q u)).
Proof.
  intros P H K. rewrite (C166_balance qs u req f jac f' jac' P H). apply velocity_ok in K. destruct K as (A & _ & _).
  rewrite (sum_ext n g' _) by (intros; apply A). rewrite sum_plus. change (fun k => g k) with g.
  rewrite sum_int. rewrite (int_ext qs (fun q => sum n _) (fun q => at_q n q ut)).
  - replace (sum n g + integral qs (fun q => at_q n q ut) - sum n g) with (integral qs (fun q => at_q n q ut)) by ring.
    rewrite <- int_plus. apply int_ext. intros; ring.
  - intros q Hq. apply (sum_rate n dim q _ _ (P q Hq)).
Qed.
(** the column sums of the Jacobian are the exact derivative of that total *)
Theorem C166_total_tangent qs u du t0 (F : R -> vec) (J : R -> matrix) f jac : (forall q, In q qs -> partition n dim q) ->
  history n t0 u du -> locally t0 (fun t => residual qs (u t) true f jac = Ok (F t, J t)) ->
  is_derive (fun t => sum n (F t)) t0 (sum n (fun b => sum n (fun a => J t0 a b - jac a b) * du b)).
Proof.
  intros P H L. pose proof (locally_singleton _ _ L) as L0.
  cbv beta in L0. assert (NF : not_flat n dim qs (u t0)) by (apply (proj1 (C166_runs qs (u t0) true f jac)); exists (F t0, J t0); exact L0).
  apply (der_near _ (fun t => sum n f + integral qs (fun q => - Vn (lx q) time * len dim (grad_q n q (u t)))) t0).
  - revert L. apply filter_imp. intros t E. pose proof (C166_balance _ _ _ _ _ _ _ P E). lra.
  - eapply der_eq; [apply der_plus; [apply der_const|]|].
    + apply (der_intl qs (fun t q => - Vn (lx q) time * len dim (grad_q n q (u t)))). intros q Hq. apply der_scal.
      apply der_len; [exact H|]. now apply NF.
    + rewrite Rplus_0_l. apply C166_value in L0. destruct L0 as [_ B].
      rewrite (sum_ext n _ (fun b => integral qs (fun q => dotp dim (V (u t0) q) (ldN q b) * du b))).
      * rewrite sum_int. apply int_ext. intros q _. rewrite <- speed_dot. rewrite grad_expand. apply sum_ext. intros; ring.
      * intros b _. rewrite (sum_ext n _ (fun a => integral qs (fun q => front_tangent n dim q (u t0) (V (u t0) q) a b))) by (intros; rewrite B; ring).
        rewrite sum_int. rewrite Rmult_comm, <- int_scal. apply int_ext. intros q Hq. rewrite sum_tangent by auto. ring.
Qed.
End Propagation.

(** one line element: all the pieces *)
Definition one_speed : (nat -> R) -> R -> R := fun _ _ => 1.
Lemma line_grad a b j : grad_q 2 qline (uline a b) j = b - a.
Proof. unfold grad_q; cbn. ring. Qed.
Lemma line_len a b : a < b -> len 1 (grad_q 2 qline (uline a b)) = b - a.
Proof.
  intros H. unfold len. cbn [sum]. rewrite line_grad. rewrite Rplus_0_l. apply sqrt_square. lra.
Qed.
Lemma line_speed a b j : a < b -> normal_speed 2 1 1 qline (uline a b) j = -1.
Proof. intros H. unfold normal_speed. rewrite line_len, line_grad by auto. field. lra. Qed.
Lemma line_up V : (forall j, V j = -1) -> upwind 2 1 qline V = 1/2.
Proof.
  intros H. assert (L : len 1 V = 1). { unfold len. cbn. rewrite H. replace (0 + -1 * -1) with 1 by ring. apply sqrt_1. }
  unfold upwind. rewrite L. destruct (Rlt_dec (/ 1000000) 1); [|lra]. unfold dotp; cbn. rewrite !H.
  replace (0 + -1 * -1) with 1 by ring. replace (0 + -1 * 1) with (-1) by ring. rewrite Rabs_R1, Rabs_left by lra. field; intros E; lra.
Qed.
Definition dcap (g : R) : R := 1/2 * g / sqrt (/ 1000000 + g * g).
Lemma line_cap a b V : a < b -> (forall j, V j = -1) -> capture 2 1 qline (uline a b) V = dcap (b - a).
Proof.
  intros H E. unfold capture, dcap, dotp. cbn [sum]. rewrite line_grad. cbn [qline lxi]. rewrite E.
  replace (0 + -1 * (b - a)) with (- (b - a)) by ring. rewrite Rabs_Ropp, Rabs_right by lra.
  do 3 f_equal. ring.
Qed.
Lemma dcap_pos g : 0 < g -> 0 < dcap g.
Proof. intros H. unfold dcap. apply Rdiv_lt_0_compat; [lra|]. apply sqrt_lt_R0. nra. Qed.
Lemma line_residual a b : a < b -> exists f j, internal_residual 2 1 true (Some one_speed) (0%nat, fun _ => 0) 0 [qline] (uline a b) true (fun _ => 0) (fun _ _ => 0) = Ok (f, j) /\
  f 1%nat = dcap (b - a) * (b - a) /\ j 1%nat 1%nat = dcap (b - a).
Proof.
  intros H. destruct (proj2 (C166_runs 2 1 one_speed (0%nat, fun _ => 0) 0 [qline] (uline a b) true (fun _ => 0) (fun _ _ => 0))) as [[f j] E].
  { intros q [<-|[]]. rewrite line_len by auto. lra. }
  exists f, j. split; [exact E|]. apply C166_value in E. destruct E as [A B]. rewrite A, B. rewrite !int_cons, !int_nil.
  unfold front_term, front_tangent. cbn [lx qline]. unfold one_speed.
  assert (S : forall j, normal_speed 2 1 1 qline (uline a b) j = -1) by (intros; now apply line_speed).
  rewrite (line_up _ S), (line_cap a b _ H S). unfold dotp; cbn [sum]. rewrite S, line_grad. cbn. split; field.
Qed.
(** the Jacobian is not the derivative of the residual: the coefficients of the stabilisation depend on the
    field too *)
Theorem C166_tangent_refuted : exists (u : R -> vec) du (t0 : R) (F : R -> vec) J,
  history 2 t0 u du /\ locally t0 (fun t => exists Jt, internal_residual 2 1 true (Some one_speed) (0%nat, fun _ => 0) 0 [qline] (u t) true (fun _ => 0) (fun _ _ => 0) = Ok (F t, Jt)) /\
  internal_residual 2 1 true (Some one_speed) (0%nat, fun _ => 0) 0 [qline] (u t0) true (fun _ => 0) (fun _ _ => 0) = Ok (F t0, J) /\
  ~ is_derive (fun t : R => F t 1%nat) t0 (sum 2 (fun b => J 1%nat b * du b)).
Proof.
  set (u := fun t : R => uline 0 t). set (du := uline 0 1).
  set (F := fun t => match internal_residual 2 1 true (Some one_speed) (0%nat, fun _ => 0) 0 [qline] (u t) true (fun _ => 0) (fun _ _ => 0) with Ok (f, _) => f | _ => fun _ => 0 end).
  destruct (line_residual 0 1 ltac:(lra)) as (f & j & E & E1 & E2).
  exists u, du, 1, F, j. split; [|split; [|split]].
  - intros a Ha. unfold u, du, uline. destruct (a =? 0)%nat; [apply der_const|]. eapply der_eq; [apply is_derive_id|]. reflexivity.
  - exists (mkposreal (1/2) ltac:(lra)). intros t Ht. change (Rabs (t - 1) < 1/2) in Ht. apply Rabs_def2 in Ht.
    destruct (line_residual 0 t ltac:(lra)) as (f' & j' & E' & _). exists j'. unfold F, u. now rewrite E'.
  - unfold F. unfold u in *. rewrite E. reflexivity.
  - intros D. assert (D2 : is_derive (fun t : R => 1/2 * (t * t) / sqrt (/ 1000000 + t * t)) 1 (sum 2 (fun b => j 1%nat b * du b))).
    { eapply der_near; [|exact D]. exists (mkposreal (1/2) ltac:(lra)). intros t Ht. change (Rabs (t - 1) < 1/2) in Ht. apply Rabs_def2 in Ht.
      destruct (line_residual 0 t ltac:(lra)) as (f' & j' & E' & X & _). unfold F, u. rewrite E', X. unfold dcap. rewrite Rminus_0_r. unfold Rdiv. ring. }
    assert (V : sum 2 (fun b => j 1%nat b * du b) = dcap 1). { cbn. unfold du, uline; cbn. rewrite E2. rewrite Rminus_0_r. ring. }
    rewrite V in D2.
    assert (P : 0 < / 1000000 + 1 * 1) by lra.
    assert (D3 : is_derive (fun t : R => 1/2 * (t * t) / sqrt (/ 1000000 + t * t)) 1
       (1 / sqrt (/ 1000000 + 1 * 1) - 1/2 * / (sqrt (/ 1000000 + 1 * 1) * (/ 1000000 + 1 * 1)))).
    { assert (SP : 0 < sqrt (/ 1000000 + 1 * 1)) by now apply sqrt_lt_R0. pose proof (sqrt_sqrt (/ 1000000 + 1 * 1) (Rlt_le _ _ P)) as SS.
      auto_derive; [split; [lra|split; [lra|auto]]|]. set (r := sqrt (/ 1000000 + 1 * 1)) in *. rewrite <- SS. field. lra. }
    pose proof (der_unique _ _ _ _ D2 D3) as X. unfold dcap in X.
    assert (SP : 0 < sqrt (/ 1000000 + 1 * 1)) by now apply sqrt_lt_R0.
    assert (K : forall r p : R, 0 < r -> 1 < p -> 1 / 2 * 1 / r = 1 / r - 1 / 2 * / (r * p) -> False).
    { clear. intros r p Hr Hp X. apply (f_equal (fun x => x * (2 * (r * p)))) in X.
      replace (1 / 2 * 1 / r * (2 * (r * p))) with p in X by (field; lra).
      replace ((1 / r - 1 / 2 * / (r * p)) * (2 * (r * p))) with (2 * p - 1) in X by (field; split; lra). lra. }
    apply (K _ _ SP) in X; lra.
Qed.
(** a field that moves exactly with the normal speed does not satisfy the equations: the discontinuity
    capturing term remains *)
Theorem C166_exact_motion_refuted : exists u ut f g, at_q 2 qline ut = 1 * len 1 (grad_q 2 qline u) /\
  (exists J, internal_residual 2 1 true (Some one_speed) (0%nat, fun _ => 0) 0 [qline] u true (fun _ => 0) (fun _ _ => 0) = Ok (f, J)) /\
  (exists Jx J, velocity_residual 2 1 true (Some one_speed) (0%nat, fun _ => 0) 0 [qline] u ut true (fun _ => 0) (fun _ _ => 0) (fun _ _ => 0) = Ok (g, Jx, J)) /\
  f 1%nat + g 1%nat <> 0.
Proof.
  destruct (line_residual 0 1 ltac:(lra)) as (f & j & E & E1 & E2).
  destruct (velocity_runs 2 1 true one_speed (0%nat, fun _ => 0) 0 [qline] (uline 0 1) (uline 1 1) true (fun _ => 0) (fun _ _ => 0) (fun _ _ => 0)) as (g & jx & G).
  { split; [|discriminate]. intros _ q [<-|[]]. rewrite line_len by lra. lra. }
  exists (uline 0 1), (uline 1 1), f, g. split; [rewrite line_len by lra; unfold at_q; cbn; lra|]. split; [eauto|]. split; [eauto|].
  apply C166_rate in G. destruct G as [A _]. rewrite A, E1, int_cons, int_nil. unfold rate_term. cbn [lx qline]. unfold one_speed.
  assert (S : forall j, normal_speed 2 1 1 qline (uline 0 1) j = -1) by (intros; apply line_speed; lra).
  rewrite (line_up _ S). unfold dotp, at_q; cbn. rewrite S. pose proof (dcap_pos (1 - 0) ltac:(lra)). intros Z. lra.
Qed.
(** a flat field is not answered with a number *)
Theorem C166_flat_refuted : exists u, forall Vn ref time req f jac, internal_residual 2 1 true (Some Vn) ref time [qline] u req f jac = Fault DivByZero.
Proof.
  exists (uline 3 3). intros. unfold internal_residual. cbn [over]. unfold internal_qp, velocity_and_source.
  change (slope 2 qline (uline 3 3)) with (grad_q 2 qline (uline 3 3)). rewrite norm_len.
  assert (E : len 1 (grad_q 2 qline (uline 3 3)) = 0). { unfold len. cbn [sum]. rewrite line_grad. replace (0 + (3 - 3) * (3 - 3)) with 0 by ring. apply sqrt_0. }
  rewrite E, (proj2 (reqb_true 0 0) eq_refl). reflexivity.
Qed.

(** ** C167: reinitialisation *)
Section Reinit.
Variables (n dim : nat) (Vn : (nat -> R) -> R -> R) (ref : nat * vec) (time : R).
Notation W u q := (reinit_speed n dim (at_q n q (snd ref)) q u).
Notation S u q := (smooth_sign (at_q n q (snd ref)) (len dim (grad_q n q u))).
Notation residual := (internal_residual n dim false (Some Vn) ref time).
Theorem C167_value qs u req f jac f' jac' : residual qs u req f jac = Ok (f', jac') ->
  (forall a, f' a = f a + integral qs (fun q => front_term n dim q u (W u q) (S u q) a)) /\
  (forall a b, jac' a b = jac a b + (if req then integral qs (fun q => front_tangent n dim q u (W u q) a b) else 0)).
Proof. intros H. apply internal_ok in H. destruct H as (A & B & _). split; [exact A|exact B]. Qed.
(** a reference of the right size that does not vanish together with the gradient is enough to run *)
Theorem C167_runs qs u req f jac : fst ref = n -> (forall q, In q qs -> at_q n q (snd ref) <> 0 \/ len dim (grad_q n q u) <> 0) ->
  exists r, residual qs u req f jac = Ok r.
Proof.
  intros H K. destruct (internal_runs n dim false Vn ref time qs u req f jac) as (f' & j' & E); [|eauto]. split; [discriminate|auto].
Qed.
Lemma reinit_dot u q w : dotp dim (W u q) w = if Rlt_dec (/ 1000000) (len dim (grad_q n q u)) then S u q * (dotp dim (grad_q n q u) w / len dim (grad_q n q u)) else 0.
Proof.
  unfold reinit_speed. destruct (Rlt_dec (/ 1000000) (len dim (grad_q n q u))) as [H|H].
  - transitivity (dotp dim (fun j => S u q / len dim (grad_q n q u) * grad_q n q u j) w); [apply sum_ext; intros; unfold Rdiv; ring|].
    rewrite dotp_scal_l. unfold Rdiv. ring.
  - apply dotp_zero_l. auto.
Qed.
(** in total the field is driven towards slope one: downhill where it is too steep, uphill where too flat *)
Theorem C167_balance qs u req f jac f' jac' : (forall q, In q qs -> partition n dim q) ->
  (forall q, In q qs -> / 1000000 < len dim (grad_q n q u)) ->
  residual qs u req f jac = Ok (f', jac') ->
  sum n f' - sum n f = integral qs (fun q => S u q * (len dim (grad_q n q u) - 1)).
Proof.
  intros P G H. apply C167_value in H. destruct H as [A _].
  rewrite (sum_ext n f' _) by (intros; apply A). rewrite sum_plus. change (fun k => f k) with f. rewrite sum_int.
  match goal with |- ?a + ?b - ?a = ?c => replace (a + b - a) with b by ring end.
  apply int_ext. intros q Hq. change (sum n (front_term n dim q u (W u q) (S u q)) = S u q * (len dim (grad_q n q u) - 1)).
  rewrite sum_front by auto. rewrite reinit_dot. destruct (Rlt_dec _ _) as [_|N]; [|exfalso; apply N; auto]. rewrite len_dotp.
  specialize (G q Hq). field. lra.
Qed.
(** where the reference field is zero nothing moves *)
Theorem C167_interface qs u req f jac f' jac' : (forall q, In q qs -> at_q n q (snd ref) = 0) ->
  residual qs u req f jac = Ok (f', jac') -> forall a, f' a = f a.
Proof.
  intros Z H a. apply C167_value in H. destruct H as [A _]. rewrite A. rewrite (int_ext qs _ (fun q => 0 * 0)); [rewrite int_scal; ring|].
  intros q Hq. assert (Sz : S u q = 0) by (rewrite (Z q Hq); unfold smooth_sign, Rdiv; ring).
  assert (D : forall w, dotp dim (W u q) w = 0). { intros w. rewrite reinit_dot, Sz. destruct (Rlt_dec _ _); ring. }
  unfold front_term, capture. rewrite !D, Sz, Rabs_R0. unfold Rdiv. ring.
Qed.
(** for a field of slope one only the discontinuity capturing term is left, and it adds up to nothing *)
Theorem C167_distance_partial qs u req f jac f' jac' : (forall q, In q qs -> len dim (grad_q n q u) = 1) ->
  residual qs u req f jac = Ok (f', jac') ->
  (forall a, f' a = f a + integral qs (fun q => capture n dim q u (W u q) * dotp dim (ldN q a) (grad_q n q u))) /\
  ((forall q, In q qs -> partition n dim q) -> sum n f' = sum n f).
Proof.
  intros G H. split.
  - intros a. pose proof (proj1 (C167_value _ _ _ _ _ _ _ H) a) as A. rewrite A. f_equal. apply int_ext. intros q Hq. unfold front_term.
    rewrite (reinit_dot u q (grad_q n q u)). rewrite (G q Hq). destruct (Rlt_dec (/ 1000000) 1); [|lra]. rewrite len_dotp, (G q Hq). field.
  - intros P. assert (B := C167_balance qs u req f jac f' jac' P). rewrite (int_ext qs _ (fun q => 0 * 0)) in B by (intros q Hq; rewrite (G q Hq); ring).
    rewrite int_scal in B. assert (sum n f' - sum n f = 0 * integral qs (fun _ => 0)); [|lra]. apply B; [intros q Hq; rewrite (G q Hq); lra|auto].
Qed.
(** the normal speed function is not used, but it has to be there; a reference of another size is refused *)
Theorem C167_inputs Vn' qs u req f jac : internal_residual n dim false (Some Vn') ref time qs u req f jac = residual qs u req f jac /\
  internal_residual n dim false None ref time qs u req f jac = Fault AssertFailed /\
  (fst ref <> n -> qs <> [] -> residual qs u req f jac = Fault AssertFailed).
Proof.
  split; [reflexivity|]. split; [reflexivity|]. intros N Q. destruct qs as [|q qs]; [contradiction|]. unfold internal_residual. cbn [over].
  unfold internal_qp, velocity_and_source. apply Nat.eqb_neq in N. rewrite N. reflexivity.
Qed.
End Reinit.
(** the smoothed sign *)
Theorem C167_sign r g : -1 <= smooth_sign r g <= 1 /\ (0 < r -> 0 < smooth_sign r g) /\ (r < 0 -> smooth_sign r g < 0) /\
  smooth_sign (- r) g = - smooth_sign r g.
Proof.
  assert (X : forall r, 0 < r -> 0 < smooth_sign r g <= 1).
  { intros x Hx. unfold smooth_sign. assert (P : 0 < x * x + / 1000000 * (g * g)) by nra. pose proof (sqrt_lt_R0 _ P) as Q.
    split; [now apply Rdiv_lt_0_compat|]. apply Rmult_le_reg_r with (sqrt (x * x + / 1000000 * (g * g))); [auto|].
    unfold Rdiv. rewrite Rmult_assoc, Rinv_l, Rmult_1_l, Rmult_1_r by lra. apply Rsqr_incr_0; [|lra|lra]. unfold Rsqr. rewrite sqrt_sqrt by lra. nra. }
  assert (N : smooth_sign (- r) g = - smooth_sign r g). { unfold smooth_sign. replace (- r * - r) with (r * r) by ring. unfold Rdiv. ring. }
  split; [|split; [intros; now apply X|split; [|exact N]]].
  - destruct (Rtotal_order r 0) as [H|[->|H]].
    + specialize (X (- r) ltac:(lra)). rewrite N in X. lra.
    + unfold smooth_sign, Rdiv. rewrite Rmult_0_l. lra.
    + specialize (X r H). lra.
  - intros H. specialize (X (- r) ltac:(lra)). rewrite N in X. lra.
Qed.
(** a signed distance function is not left alone *)
Theorem C167_distance_refuted : exists u ref f, (forall q, In q [qline] -> len 1 (grad_q 2 q u) = 1) /\
  (forall Vn time, exists J, internal_residual 2 1 false (Some Vn) (2%nat, ref) time [qline] u true (fun _ => 0) (fun _ _ => 0) = Ok (f, J)) /\ f 1%nat <> 0.
Proof.
  set (z := fun _ : nat => 0). set (zz := fun _ _ : nat => 0). set (u := uline 0 1).
  assert (G : forall q, In q [qline] -> len 1 (grad_q 2 q u) = 1) by (intros q [<-|[]]; unfold u; rewrite line_len; lra).
  destruct (C167_runs 2 1 one_speed (2%nat, uline 0 1) 0 [qline] u true z zz eq_refl) as [[f J] E]. { intros q Hq. right. rewrite (G q Hq). lra. }
  exists u, (uline 0 1), f. split; [exact G|]. split; [intros; exists J; exact E|].
  apply C167_distance_partial in E; [|exact G]. destruct E as [A _]. rewrite A, int_cons, int_nil. unfold z.
  unfold capture. rewrite (reinit_dot 2 1 (2%nat, uline 0 1)). cbn [snd]. assert (L : len 1 (grad_q 2 qline u) = 1) by (apply G; left; auto). rewrite len_dotp, L.
  destruct (Rlt_dec (/ 1000000) 1); [|lra].
  assert (Sg : 0 < smooth_sign (at_q 2 qline (uline 0 1)) 1). { apply (proj1 (proj2 (C167_sign (at_q 2 qline (uline 0 1)) 1))). unfold at_q; cbn. lra. }
  rewrite Rabs_right by lra. unfold dotp; cbn [sum]. unfold u. rewrite line_grad. cbn [qline lw ldN lxi]. set (sg := smooth_sign (at_q 2 qline (uline 0 1)) 1) in *. cbn.
  assert (Q : 0 < sqrt (/ 1000000 + (0 + (0 + 1 * (1 - 0)) * (0 + 1 * (1 - 0))))) by (apply sqrt_lt_R0; lra).
  apply Rinv_0_lt_compat in Q. intros Z. unfold Rdiv in Z. set (y := / sqrt _) in *. clearbody y sg. rewrite Rinv_1 in Z. assert (0 < sg * y) by now apply Rmult_lt_0_compat. lra.
Qed.
Example C167_example : exists r, internal_residual 2 1 false (Some one_speed) (2%nat, uline (-1) 1) 0 [qline] (uline 0 3) true (fun _ => 0) (fun _ _ => 0) = Ok r.
Proof. apply C167_runs; [reflexivity|]. intros q [<-|[]]. right. rewrite line_len by lra. lra. Qed.

(** ** C170: the element operations of the transient assembly *)
Theorem C170_parts_partial n dim prop Vn ref time qs u ut req m x mx mj xj :
  elem_calculations n dim prop (Some Vn) ref time false qs u ut req = Ok (m, x, mx, mj, xj) ->
  internal_residual n dim prop (Some Vn) ref time qs u req (fun _ => 0) (fun _ _ => 0) = Ok (x, xj) /\
  velocity_residual n dim prop (Some Vn) ref time qs u ut req (fun _ => 0) (fun _ _ => 0) (fun _ _ => 0) = Ok (m, mx, mj) /\
  forall a b, mj a b = 0.
Proof.
  unfold elem_calculations. destruct (internal_residual n dim prop (Some Vn) ref time qs u req (fun _ => 0) (fun _ _ => 0)) as [[x' xj']|]; [|discriminate].
  cbn [bind external_residual]. destruct (velocity_residual n dim prop (Some Vn) ref time qs u ut req (fun _ => 0) (fun _ _ => 0) (fun _ _ => 0)) as [[[m' mx'] mj']|] eqn:E; [|discriminate].
  cbn. intros [= <- <- <- <- <-]. split; [reflexivity|]. split; [reflexivity|]. apply velocity_ok in E. destruct E as (_ & _ & ->). auto.
Qed.
Theorem C170_runs_partial n dim prop Vn ref time qs u ut req : healthy n dim prop ref qs u ->
  exists r, elem_calculations n dim prop (Some Vn) ref time false qs u ut req = Ok r.
Proof.
  intros H. unfold elem_calculations. destruct (internal_runs n dim prop Vn ref time qs u req (fun _ => 0) (fun _ _ => 0) H) as (f & j & ->). cbn [bind external_residual].
  destruct (velocity_runs n dim prop Vn ref time qs u ut req (fun _ => 0) (fun _ _ => 0) (fun _ _ => 0) H) as (g & jx & ->). cbn. eauto.
Qed.
(** in a build with assertions no element can be assembled at all *)
Theorem C170_checked_refuted n dim prop Vn ref time qs u ut req : forall r, elem_calculations n dim prop Vn ref time true qs u ut req <> Ok r.
Proof. intros r. unfold elem_calculations. destruct (internal_residual _ _ _ _ _ _ _ _ _ _ _); discriminate. Qed.
Example C170_example : exists r, elem_calculations 2 1 true (Some one_speed) (0%nat, fun _ => 0) 0 false [qline] (uline 0 1) (uline 1 1) true = Ok r.
Proof. apply C170_runs_partial. split; [|discriminate]. intros _ q [<-|[]]. rewrite line_len by lra. lra. Qed.

Print Assumptions C166_total_tangent.
Print Assumptions C166_tangent_refuted.
Print Assumptions C167_balance.
Print Assumptions C170_parts_partial.
