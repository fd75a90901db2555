(** Theorems about the continuum element. *)
From Coq Require Import Reals Lra.
From Coquelicot Require Import Coquelicot.
From Coq Require Import List Arith Bool Lia.
From Verif Require Import Base BaseLemmas Sens_Spec Sens_Proofs Sens_Proofs2 Heat_Proofs Solid_Model Solid_Spec Solid_Proofs Solid_Proofs2 Solid_Proofs3.
Import ListNotations.
Open Scope R_scope.

(** a tetrahedron with corners at the origin and the unit points, one quadrature point *)
Definition tet_dphi (a j : nat) : R := if Nat.eqb a 0 then -1 else if Nat.eqb a (S j) then 1 else 0.
Definition tet_q : qpt := mkQ (1/6) (fun _ => 1/4) (fun _ => 1/4) tet_dphi (fun _ => 0).
Definition tet_x : dofs := fun c a => if Nat.eqb a (S c) then 1 else 0.
Definition iso6 (q : qpt) (r s : nat) : R := if Nat.eqb r s then 1 else 0.
(** stretch along x of the tetrahedron *)
Definition tet_u : dofs := fun c a => if Nat.eqb c 0 && Nat.eqb a 1 then 1 else 0.
Ltac fin k := destruct k as [|[|[|k]]]; [| | |exfalso; lia].
Example tet_complete : complete 4 tet_x [tet_q].
Proof.
  intros q [<-|[]]. split.
  - intros j Hj. fin j; cbn; ring.
  - intros i j Hi Hj. fin i; fin j; unfold grad, delta; cbn; ring.
Qed.
Example iso6_sym : forall q, In q [tet_q] -> symmetric6 (iso6 q).
Proof. intros q _ r s _ _. unfold iso6. now rewrite Nat.eqb_sym. Qed.

Lemma swap3 n (g : nat -> nat -> nat -> R) : sum 3 (fun d => sum n (fun b => sum 6 (fun r => g r d b))) = sum 6 (fun r => sum 3 (fun d => sum n (fun b => g r d b))).
Proof.
  transitivity (sum 3 (fun d => sum 6 (fun r => sum n (fun b => g r d b)))); [apply sum_ext; intros d _; apply sum_swap|].
  exact (sum_swap 3 6 (fun d r => sum n (fun b => g r d b))).
Qed.

Lemma Ok_inj {A} (x y : A) : Ok x = Ok y -> x = y.
Proof. congruence. Qed.
(** ** C126: forces are the gradient of the strain energy *)
Theorem C126_runs : forall n m nl qs C u req f0 j0,
  (m = n -> exists r, internal_residual n m nl qs C u req f0 j0 = Ok r) /\
  (m <> n -> qs <> [] -> internal_residual n m nl qs C u req f0 j0 = Fault AssertFailed).
Proof.
  intros n m nl qs C u req f0 j0. split.
  - intros E. unfold internal_residual. rewrite checked_eq by exact E. eexists. reflexivity.
  - intros E Q. unfold internal_residual, checked. destruct qs; [congruence|]. unfold assert_.
    destruct (Nat.eqb_spec m n); [contradiction|reflexivity].
Qed.
Theorem C126_energy_gradient : forall n m nl qs C u req f0 j0 f j,
  (forall q, In q qs -> symmetric6 (C q)) ->
  internal_residual n m nl qs C u req f0 j0 = Ok (f, j) ->
  (forall v, is_derive (fun s => energy nl n qs C (shift u v s)) 0 (dot n (fun c a => f c a - f0 c a) v)) /\
  (forall c a, (3 <= c)%nat -> f c a = f0 c a).
Proof.
  intros n m nl qs C u req f0 j0 f j HS H. destruct (internal_spec _ _ _ _ _ _ _ _ _ _ _ H) as (F & _).
  split.
  - intros v. assert (D := der_energy n nl 0 (shift u v) v (hist_shift n u v) (fun _ => C) (fun _ _ => 0) qs HS).
    eapply der_fun; [|eapply der_eq; [exact D|]].
    + intros t. symmetry. symmetry. apply energy_0.
    + transitivity (dot n (fun c a => integral qs (force n nl C (shift u v 0) c a)) v).
      * rewrite work_force. apply integral_ext. intros q Hq. apply sum_ext. intros r Hr. f_equal.
        unfold stress_vec. rewrite (sum_0 6 (fun s => C q r s * 0)) by (intros; ring). ring.
      * unfold dot. apply sum_ext. intros c Hc. apply sum_ext. intros a _. f_equal. rewrite F.
        destruct (Nat.ltb_spec c 3); [|lia]. rewrite (integral_ext qs _ (force n nl C u c a)); [ring|].
        intros q _. apply force_ext. apply shift_0.
  - intros c a Hc. rewrite F. destruct (Nat.ltb_spec c 3); [lia|reflexivity].
Qed.
(** the force is work conjugate to the strain for any material matrix *)
Theorem C126_virtual_work : forall n m nl qs C u req f0 j0 f j v,
  internal_residual n m nl qs C u req f0 j0 = Ok (f, j) ->
  exists e : qpt -> nat -> R,
    (forall q r, (r < 6)%nat -> is_derive (fun s => strain_vec nl n q (shift u v s) r) 0 (e q r)) /\
    dot n (fun c a => f c a - f0 c a) v =
      integral qs (fun q => sum 6 (fun r => stress_vec (C q) (strain_vec nl n q u) r * e q r)).
Proof.
  intros n m nl qs C u req f0 j0 f j v H. destruct (internal_spec _ _ _ _ _ _ _ _ _ _ _ H) as (F & _).
  exists (dstrain n nl 0 (shift u v) v). split.
  - intros q r Hr. now apply der_strain; [apply hist_shift|].
  - transitivity (dot n (fun c a => integral qs (force n nl C (shift u v 0) c a)) v).
    + unfold dot. apply sum_ext. intros c Hc. apply sum_ext. intros a _. f_equal. rewrite F.
      destruct (Nat.ltb_spec c 3); [|lia]. rewrite (integral_ext qs _ (force n nl C (shift u v 0) c a)); [ring|].
      intros q _. symmetry. apply force_ext. apply shift_0.
    + rewrite work_force. apply integral_ext. intros q _. apply sum_ext. intros r _. f_equal.
      exact (stress_at_ext n nl (C q) q (shift u v 0) u r (shift_0 u v)).
Qed.
(** the stretched tetrahedron: F = diag(2, 1, 1), E11 = 3/2, so node 1 is pulled with 2 * 3/2 / 6 *)
Example C126_case : exists f j, internal_residual 4 4 true [tet_q] iso6 tet_u true no_f no_j = Ok (f, j) /\
  f 0%nat 1%nat = 1/2 /\ f 0%nat 0%nat = -(1/2) /\ (forall q, In q [tet_q] -> symmetric6 (iso6 q)).
Proof.
  destruct (proj1 (C126_runs 4 4 true [tet_q] iso6 tet_u true no_f no_j) eq_refl) as [[f j] E]. exists f, j. split; [exact E|].
  destruct (internal_spec _ _ _ _ _ _ _ _ _ _ _ E) as (F & _). split; [|split; [|exact iso6_sym]]; rewrite F; cbn [Nat.ltb Nat.leb].
  - rewrite integral_cons, integral_nil. unfold no_f, force, Bt, Fd, stress_at, stress_vec, strain_vec, strain, defgrad, delta, iso6, grad. cbn. field.
  - rewrite integral_cons, integral_nil. unfold no_f, force, Bt, Fd, stress_at, stress_vec, strain_vec, strain, defgrad, delta, iso6, grad. cbn. field.
Qed.

(** ** C127: the Jacobian *)
Theorem C127_tangent : forall n m nl qs C u f0 j0 f j (v : dofs) (F : R -> dofs),
  internal_residual n m nl qs C u true f0 j0 = Ok (f, j) ->
  (forall s, exists j', internal_residual n m nl qs C (shift u v s) false f0 j0 = Ok (F s, j')) ->
  forall c a, (c < 3)%nat ->
  is_derive (fun s => F s c a) 0 (times n (fun c a d b => j c a d b - j0 c a d b) v c a).
Proof.
  intros n m nl qs C u f0 j0 f j v F H HF c a Hc. destruct (internal_spec _ _ _ _ _ _ _ _ _ _ _ H) as (_ & J & _).
  assert (EF : forall s, f0 c a + integral qs (force n nl C (shift u v s) c a) = F s c a).
  { intros s. destruct (HF s) as [j' E]. destruct (internal_spec _ _ _ _ _ _ _ _ _ _ _ E) as (G & _).
    rewrite G. destruct (Nat.ltb_spec c 3); [reflexivity|lia]. }
  eapply der_fun; [exact EF|]. eapply der_eq; [apply der_plus; [apply (der_const (f0 c a))|]|].
  - apply der_int. intros q Hq. apply (der_force n nl 0 (shift u v) v (hist_shift n u v) (fun _ => C) (fun _ _ _ => 0) q c a); [|exact Hc].
    intros r s _ _. apply der_const.
  - rewrite Rplus_0_l, integral_add. rewrite (integral_0 qs (force n nl (fun _ _ _ => 0) _ c a)).
    2: { intros q _. unfold force. apply sum_0. intros r _. unfold stress_at, stress_vec.
         rewrite (sum_0 6 (fun s => 0 * _)) by (intros; ring). ring. }
    rewrite Rplus_0_r, integral_sum. unfold times. apply sum_ext. intros d Hd. rewrite integral_sum. apply sum_ext. intros b _.
    rewrite integral_mulr. f_equal. rewrite J by auto.
    rewrite (integral_ext qs _ (stiff n nl C u c a d b)) by (intros q _; apply stiff_ext; apply shift_0). ring.
Qed.
Theorem C127_symmetric : forall n m nl qs C u f0 j0 f j,
  (forall q, In q qs -> symmetric6 (C q)) ->
  (forall c a d b, j0 c a d b = j0 d b c a) ->
  internal_residual n m nl qs C u true f0 j0 = Ok (f, j) ->
  forall c a d b, j c a d b = j d b c a.
Proof.
  intros n m nl qs C u f0 j0 f j HS H0 H c a d b. destruct (internal_spec _ _ _ _ _ _ _ _ _ _ _ H) as (_ & J & K & _).
  destruct (Nat.lt_ge_cases c 3) as [Hc|Hc], (Nat.lt_ge_cases d 3) as [Hd|Hd].
  - rewrite !J by auto. rewrite H0. f_equal. apply integral_ext. intros q Hq. apply stiff_sym. auto.
  - rewrite !K by auto. rewrite H0. f_equal. destruct (Nat.eqb_spec c d), (Nat.eqb_spec d c); try lia; rewrite ?andb_false_r; reflexivity.
  - rewrite !K by auto. rewrite H0. f_equal. destruct (Nat.eqb_spec c d), (Nat.eqb_spec d c); try lia; rewrite ?andb_false_r; reflexivity.
  - rewrite !K by auto. rewrite H0. f_equal. rewrite (Nat.eqb_sym d c), (Nat.eqb_sym b a).
    destruct (Nat.leb_spec 3 c), (Nat.leb_spec 3 d); try lia. reflexivity.
Qed.
(** small strains and a positive semidefinite material: the stiffness is positive semidefinite *)
Theorem C127_semidefinite : forall n m qs C u f0 j0 f j v,
  (forall q, In q qs -> 0 <= jxw q /\ forall e, 0 <= sum 6 (fun r => e r * stress_vec (C q) e r)) ->
  internal_residual n m false qs C u true f0 j0 = Ok (f, j) ->
  0 <= dot n v (times n (fun c a d b => j c a d b - j0 c a d b) v).
Proof.
  intros n m qs C u f0 j0 f j v HP H. destruct (internal_spec _ _ _ _ _ _ _ _ _ _ _ H) as (_ & J & _).
  assert (E : dot n v (times n (fun c a d b => j c a d b - j0 c a d b) v) =
    integral qs (fun q => sum 6 (fun r => dstrain n false 0 (fun _ => u) v q r * stress_vec (C q) (dstrain n false 0 (fun _ => u) v q) r))).
  { unfold dot, times.
    transitivity (integral qs (fun q => sum 3 (fun c => sum n (fun a => v c a * sum 3 (fun d => sum n (fun b => stiff n false C u c a d b q * v d b)))))).
    - rewrite integral_sum. apply sum_ext. intros c Hc. rewrite integral_sum. apply sum_ext. intros a _. rewrite integral_mul. f_equal.
      rewrite integral_sum. apply sum_ext. intros d Hd. rewrite integral_sum. apply sum_ext. intros b _. rewrite integral_mulr. f_equal.
      rewrite J by auto. ring.
    - apply integral_ext. intros q _. unfold stiff.
      assert (I : forall c a, sum 3 (fun d => sum n (fun b => (sum 6 (fun r => Bt n false q u r c a * sum 6 (fun s => C q r s * Bt n false q u s d b)) + 0) * v d b))
        = sum 6 (fun r => Bt n false q u r c a * stress_vec (C q) (dstrain n false 0 (fun _ => u) v q) r)).
      { intros c a.
        transitivity (sum 3 (fun d => sum n (fun b => sum 6 (fun r => Bt n false q u r c a * sum 6 (fun s => C q r s * (Bt n false q u s d b * v d b)))))).
        { apply sum_ext. intros d _. apply sum_ext. intros b _. rewrite Rplus_0_r, <- sum_scal_r. apply sum_ext. intros r _.
          rewrite Rmult_assoc. f_equal. rewrite <- sum_scal_r. apply sum_ext. intros; ring. }
        transitivity (sum 6 (fun r => sum 3 (fun d => sum n (fun b => Bt n false q u r c a * sum 6 (fun s => C q r s * (Bt n false q u s d b * v d b)))))).
        { exact (swap3 n (fun r d b => Bt n false q u r c a * sum 6 (fun s => C q r s * (Bt n false q u s d b * v d b)))). }
        apply sum_ext. intros r _. unfold stress_vec, dstrain.
        transitivity (Bt n false q u r c a * sum 3 (fun d => sum n (fun b => sum 6 (fun s => C q r s * (Bt n false q u s d b * v d b))))).
        { rewrite <- sum_scal_l. apply sum_ext. intros d _. now rewrite <- sum_scal_l. }
        f_equal. transitivity (sum 6 (fun s => sum 3 (fun d => sum n (fun b => C q r s * (Bt n false q u s d b * v d b))))).
        { exact (swap3 n (fun s d b => C q r s * (Bt n false q u s d b * v d b))). }
        apply sum_ext. intros s _. rewrite <- sum_scal_l. apply sum_ext. intros d _. now rewrite <- sum_scal_l. }
      transitivity (sum 3 (fun c => sum n (fun a => sum 6 (fun r => v c a * (Bt n false q u r c a * stress_vec (C q) (dstrain n false 0 (fun _ => u) v q) r))))).
      { apply sum_ext. intros c _. apply sum_ext. intros a _. rewrite I. now rewrite sum_scal_l. }
      transitivity (sum 6 (fun r => sum 3 (fun c => sum n (fun a => v c a * (Bt n false q u r c a * stress_vec (C q) (dstrain n false 0 (fun _ => u) v q) r))))).
      { exact (swap3 n (fun r c a => v c a * (Bt n false q u r c a * stress_vec (C q) (dstrain n false 0 (fun _ => u) v q) r))). }
      apply sum_ext. intros r _. unfold dstrain at 2. rewrite <- sum_scal_r. apply sum_ext. intros c _. rewrite <- sum_scal_r. apply sum_ext. intros; ring. }
  rewrite E. clear E J H.
  induction qs as [|q qs IH]; [rewrite integral_nil; lra|]. rewrite integral_cons.
  assert (A : 0 <= jxw q * sum 6 (fun r => dstrain n false 0 (fun _ => u) v q r * stress_vec (C q) (dstrain n false 0 (fun _ => u) v q) r)).
  { destruct (HP q (or_introl eq_refl)) as [H1 H2]. apply Rmult_le_pos; [exact H1|apply H2]. }
  assert (B := IH (fun q' h => HP q' (or_intror h))). lra.
Qed.
(** the unknowns the element does not use get a diagonal entry relative to the largest one, and nothing else *)
Theorem C127_unused : forall n m nl qs C u f0 f j,
  internal_residual n m nl qs C u true f0 no_j = Ok (f, j) ->
  (forall c a d b, (3 <= c \/ 3 <= d)%nat -> (c <> d \/ a <> b) -> j c a d b = 0) /\
  exists big, (forall c a, (c < 6)%nat -> (a < n)%nat -> (c < 3)%nat -> j c a c a <= big) /\
    (forall c a, (3 <= c < 6)%nat -> (a < n)%nat -> j c a c a = big / 10 ^ 20) /\ ((0 < n)%nat -> 0 <= big).
Proof.
  intros n m nl qs C u f0 f j H. destruct (internal_spec _ _ _ _ _ _ _ _ _ _ _ H) as (_ & J & K & _). split.
  - intros c a d b Hc Hn. rewrite K by auto. unfold no_j.
    destruct (Nat.eqb_spec c d), (Nat.eqb_spec a b); rewrite ?andb_false_r; cbn [andb]; try ring. destruct Hn; contradiction.
  - set (M := snd (fold_left (internal_qp n nl C u true) qs (f0, no_j))).
    exists (max_diag n M).
    assert (MX : forall c a, (c < 6)%nat -> (a < n)%nat -> M c a c a <= max_diag n M).
    { intros c a Hc Ha. unfold max_diag.
      assert (IN : In (c, a) (dof_list n)) by (apply in_prod; apply in_seq; lia).
      induction (dof_list n) as [|e l IHl]; [destruct IN|]. cbn [fold_right]. destruct IN as [->|IN].
      - cbn [fst snd]. apply Rmax_l.
      - eapply Rle_trans; [now apply IHl|apply Rmax_r]. }
    split; [|split].
    + intros c a Hc Ha H3. replace (j c a c a) with (M c a c a); [now apply MX|].
      rewrite J by auto. unfold M. rewrite internal_fold_j by auto. reflexivity.
    + intros c a [H3 H6] Ha. rewrite K by auto. fold M. unfold no_j.
      destruct (Nat.leb_spec 3 c); [|lia]. rewrite !Nat.eqb_refl. cbn [andb]. field.
    + intros Hn. eapply Rle_trans; [|apply (MX 3%nat 0%nat); lia]. unfold M. rewrite internal_fold_out by lia. unfold no_j. lra.
Qed.
Example C127_case : exists f j, internal_residual 4 4 true [tet_q] iso6 tet_u true no_f no_j = Ok (f, j) /\
  j 0%nat 1%nat 0%nat 1%nat = 11/12.
Proof.
  destruct (proj1 (C126_runs 4 4 true [tet_q] iso6 tet_u true no_f no_j) eq_refl) as [[f j] E]. exists f, j. split; [exact E|].
  destruct (internal_spec _ _ _ _ _ _ _ _ _ _ _ E) as (_ & J & _). rewrite J by (auto; lia).
  rewrite integral_cons, integral_nil. unfold no_j, stiff, geo, Bt, Fd, stress_at, stress_vec, strain_vec, strain, defgrad, delta, iso6, grad. cbn. field.
Qed.

(** ** C128: rigid motions *)
Theorem C128_objective : forall n m qs x C Q t u req f0 j0 f j f0' j0' f' j',
  complete n x qs -> orthogonal Q ->
  internal_residual n m true qs C u req f0 j0 = Ok (f, j) ->
  internal_residual n m true qs C (superposed Q t x u) req f0' j0' = Ok (f', j') ->
  forall c a, (c < 3)%nat -> f' c a - f0' c a = sum 3 (fun k => Q c k * (f k a - f0 k a)).
Proof.
  intros n m qs x C Q t u req f0 j0 f j f0' j0' f' j' CX HQ H H' c a Hc.
  destruct (internal_spec _ _ _ _ _ _ _ _ _ _ _ H) as (F & _). destruct (internal_spec _ _ _ _ _ _ _ _ _ _ _ H') as (F' & _).
  rewrite F'. destruct (Nat.ltb_spec c 3); [|lia].
  transitivity (integral qs (fun q => sum 3 (fun k => Q c k * force n true C u k a q))).
  - rewrite (integral_ext qs _ (fun q => sum 3 (fun k => Q c k * force n true C u k a q))); [ring|].
    intros q Hq. now apply (sup_force n x qs).
  - rewrite integral_sum. apply sum_ext. intros k Hk. rewrite integral_mul. f_equal. rewrite F.
    destruct (Nat.ltb_spec k 3); [ring|lia].
Qed.
Theorem C128_rigid : forall n m qs x C Q t req f0 j0 f j,
  complete n x qs -> orthogonal Q ->
  internal_residual n m true qs C (superposed Q t x no_disp) req f0 j0 = Ok (f, j) ->
  forall c a, f c a = f0 c a.
Proof.
  intros n m qs x C Q t req f0 j0 f j CX HQ H c a. destruct (internal_spec _ _ _ _ _ _ _ _ _ _ _ H) as (F & _). rewrite F.
  destruct (Nat.ltb_spec c 3) as [Hc|Hc]; [|reflexivity]. rewrite integral_0; [ring|]. intros q Hq.
  apply zero_strain_force. intros i j1 Hi Hj. rewrite (sup_strain n x qs) by auto.
  unfold strain, defgrad. assert (Z : forall k l, grad n q no_disp k l = 0) by (intros; unfold grad, no_disp; apply sum_0; intros; ring).
  rewrite (sum_ext 3 _ (fun k => delta k i * delta k j1)) by (intros; rewrite !Z; ring).
  unfold delta. fin i; fin j1; cbn; field.
Qed.
Theorem C128_small_rigid : forall n m qs x C W t req f0 j0 f j,
  complete n x qs -> skew W ->
  internal_residual n m false qs C (small_rigid W t x) req f0 j0 = Ok (f, j) ->
  forall c a, f c a = f0 c a.
Proof.
  intros n m qs x C W t req f0 j0 f j CX HW H c a. destruct (internal_spec _ _ _ _ _ _ _ _ _ _ _ H) as (F & _). rewrite F.
  destruct (Nat.ltb_spec c 3) as [Hc|Hc]; [|reflexivity]. rewrite integral_0; [ring|]. intros q Hq.
  apply zero_strain_force. intros i j1 Hi Hj. now apply (small_strain n x qs).
Qed.
(** quarter turn about z *)
Definition turn (i j : nat) : R := match i, j with 0, 1 => (-1)%R | 1, 0 => 1%R | 2, 2 => 1%R | _, _ => 0%R end%nat.
Example C128_case : orthogonal turn /\ complete 4 tet_x [tet_q] /\
  superposed turn (fun _ => 3) tet_x no_disp 0%nat 2%nat = 2 /\ skew (fun i j => match i, j with 0, 1 => (-1)%R | 1, 0 => 1%R | _, _ => 0%R end%nat).
Proof.
  split; [|split; [exact tet_complete|split]].
  - intros i j Hi Hj. fin i; fin j; unfold delta; cbn; ring.
  - unfold superposed, no_disp. cbn. ring.
  - intros i j Hi Hj. fin i; fin j; ring.
Qed.

(** ** C129: equilibrium *)
Theorem C129_resultant : forall n m nl qs x C u req f0 j0 f j,
  complete n x qs -> internal_residual n m nl qs C u req f0 j0 = Ok (f, j) ->
  forall c, sum n (fun a => f c a - f0 c a) = 0.
Proof.
  intros n m nl qs x C u req f0 j0 f j CX H c. destruct (internal_spec _ _ _ _ _ _ _ _ _ _ _ H) as (F & _).
  destruct (Nat.lt_ge_cases c 3) as [Hc|Hc].
  - rewrite (sum_ext n _ (fun a => integral qs (force n nl C u c a))).
    + transitivity (integral qs (fun q => sum n (fun a => force n nl C u c a q))); [now rewrite integral_sum|].
      apply integral_0. intros q Hq. now apply (force_resultant n x qs).
    + intros a _. rewrite F. destruct (Nat.ltb_spec c 3); [ring|lia].
  - apply sum_0. intros a _. rewrite F. destruct (Nat.ltb_spec c 3); [lia|ring].
Qed.
(** moments about the origin, in the deformed position with nonlinear strain, in the original one otherwise *)
Theorem C129_moment : forall n m nl qs x C u req f0 j0 f j,
  complete n x qs -> internal_residual n m nl qs C u req f0 j0 = Ok (f, j) ->
  forall c d, (c < 3)%nat -> (d < 3)%nat ->
  let p := fun c a => if nl then x c a + u c a else x c a in
  sum n (fun a => p c a * (f d a - f0 d a) - p d a * (f c a - f0 c a)) = 0.
Proof.
  intros n m nl qs x C u req f0 j0 f j CX H c d Hc Hd p. destruct (internal_spec _ _ _ _ _ _ _ _ _ _ _ H) as (F & _).
  rewrite (sum_ext n _ (fun a => integral qs (fun q => position x nl u c a * force n nl C u d a q - position x nl u d a * force n nl C u c a q))).
  - transitivity (integral qs (fun q => sum n (fun a => position x nl u c a * force n nl C u d a q - position x nl u d a * force n nl C u c a q))); [now rewrite integral_sum|].
    apply integral_0. intros q Hq. rewrite sum_minus. rewrite (force_moment n x qs CX nl C u c d q Hq Hc Hd). ring.
  - intros a _. rewrite !F. destruct (Nat.ltb_spec c 3); [|lia]. destruct (Nat.ltb_spec d 3); [|lia].
    rewrite (integral_ext qs (fun q => position x nl u c a * force n nl C u d a q - position x nl u d a * force n nl C u c a q)
      (fun q => position x nl u c a * force n nl C u d a q + (- position x nl u d a) * force n nl C u c a q)) by (intros; ring).
    rewrite integral_add, !integral_mul. unfold p, position. ring.
Qed.

(** ** C130: sensitivity to a parameter of the material, along any history of the displacements *)
Theorem C130_sensitivity : forall n m nl qs (C : R -> qpt -> nat -> nat -> R) dC (u : R -> dofs) du t0 f0 j0 f j fs js (F : R -> dofs),
  (forall q r s, In q qs -> (r < 6)%nat -> (s < 6)%nat -> is_derive (fun t => C t q r s) t0 (dC q r s)) ->
  history n t0 u du ->
  internal_residual n m nl qs (C t0) (u t0) true f0 j0 = Ok (f, j) ->
  internal_residual_sensitivity n m nl qs dC (u t0) false no_f no_j = Ok (fs, js) ->
  (forall t, exists j', internal_residual n m nl qs (C t) (u t) false f0 j0 = Ok (F t, j')) ->
  forall c a, (c < 3)%nat ->
  is_derive (fun t => F t c a) t0 (times n (fun c a d b => j c a d b - j0 c a d b) du c a + fs c a).
Proof.
  intros n m nl qs C dC u du t0 f0 j0 f j fs js F HC Hu H HS HF c a Hc. destruct (internal_spec _ _ _ _ _ _ _ _ _ _ _ H) as (_ & J & _).
  destruct (internal_spec _ _ _ _ _ _ _ _ _ _ _ HS) as (FS & _).
  assert (EF : forall t, f0 c a + integral qs (force n nl (C t) (u t) c a) = F t c a).
  { intros s. destruct (HF s) as [j' E]. destruct (internal_spec _ _ _ _ _ _ _ _ _ _ _ E) as (G & _).
    rewrite G. destruct (Nat.ltb_spec c 3); [reflexivity|lia]. }
  eapply der_fun; [exact EF|]. eapply der_eq; [apply der_plus; [apply (der_const (f0 c a))|]|].
  - apply der_int. intros q Hq. apply (der_force n nl t0 u du Hu C dC q c a); [|exact Hc]. auto.
  - rewrite Rplus_0_l, integral_add. rewrite FS. destruct (Nat.ltb_spec c 3); [|lia]. unfold no_f. rewrite Rplus_0_l. f_equal.
    rewrite integral_sum. unfold times. apply sum_ext. intros d Hd. rewrite integral_sum. apply sum_ext. intros b _.
    rewrite integral_mulr. f_equal. rewrite J by auto. ring.
Qed.
(** a modulus that grows with the parameter *)
Example C130_case : (forall q r s, In q [tet_q] -> (r < 6)%nat -> (s < 6)%nat ->
    is_derive (fun t => t * iso6 q r s) 2 (iso6 q r s)) /\ history 4 2 (fun t => shift no_disp tet_u t) tet_u.
Proof.
  split.
  - intros q r s _ _ _. apply (der_ext (fun t => iso6 q r s * t) _ 2 (iso6 q r s * 1)); [intros; ring|ring|]. apply der_scal, @is_derive_id.
  - intros c a _ _. unfold shift, no_disp. apply (der_ext (fun t => tet_u c a * t) _ 2 (tet_u c a * 1)); [intros; ring|ring|]. apply der_scal, @is_derive_id.
Qed.

(** ** C131: thermal loads *)
Theorem C131_energy : forall n m nl qs C alpha A dt u req f0 j0 f1 j1 f j,
  (forall q, In q qs -> symmetric6 (C q)) ->
  (forall q r, In q qs -> (r < 6)%nat -> A q r = stress_vec (C q) (alpha q) r) ->
  internal_residual n m nl qs C u req f0 j0 = Ok (f1, j1) ->
  thermal_residual n m nl qs A dt u req f1 j1 = Ok (f, j) ->
  forall v, is_derive (fun s => energy_from nl n qs C (fun q r => alpha q r * dt q) (shift u v s)) 0
    (dot n (fun c a => f c a - f0 c a) v).
Proof.
  intros n m nl qs C alpha A dt u req f0 j0 f1 j1 f j HS HA H HT v.
  destruct (internal_spec _ _ _ _ _ _ _ _ _ _ _ H) as (F & _). apply checked_ok in HT.
  assert (FT : forall c a, f c a = if Nat.ltb c 3 then f1 c a - integral qs (tforce n nl A dt u c a) else f1 c a).
  { intros c a. rewrite <- (thermal_fold n nl A dt u req qs c a f1 j1). now rewrite HT. }
  assert (D := der_energy n nl 0 (shift u v) v (hist_shift n u v) (fun _ => C) (fun q r => alpha q r * dt q) qs HS).
  eapply der_eq; [exact D|]. clear D.
  transitivity (dot n (fun c a => integral qs (force n nl C (shift u v 0) c a)) v - dot n (fun c a => integral qs (tforce n nl A dt (shift u v 0) c a)) v).
  - rewrite work_force, work_tforce.
    replace (integral qs (fun q => sum 6 (fun r => stress_at n nl (C q) q (shift u v 0) r * dstrain n nl 0 (shift u v) v q r))
       - integral qs (fun q => sum 6 (fun r => A q r * dt q * dstrain n nl 0 (fun _ => shift u v 0) v q r)))
      with (integral qs (fun q => sum 6 (fun r => stress_at n nl (C q) q (shift u v 0) r * dstrain n nl 0 (shift u v) v q r)
        + -1 * sum 6 (fun r => A q r * dt q * dstrain n nl 0 (fun _ => shift u v 0) v q r))) by (rewrite integral_add, integral_mul; ring).
    apply integral_ext. intros q Hq. rewrite <- sum_scal_l, <- sum_plus. apply sum_ext. intros r Hr.
    change (dstrain n nl 0 (fun _ => shift u v 0) v q r) with (dstrain n nl 0 (shift u v) v q r).
    rewrite HA by auto. unfold stress_vec. rewrite <- (sum_scal_r 6 (dt q)).
    rewrite (sum_ext 6 (fun s => C q r s * (alpha q s * dt q)) (fun k => C q r k * alpha q k * dt q)) by (intros; ring). ring.
  - unfold dot. rewrite <- sum_minus. apply sum_ext. intros c Hc. rewrite <- sum_minus. apply sum_ext. intros a _.
    rewrite FT, F. destruct (Nat.ltb_spec c 3); [|lia].
    rewrite (integral_ext qs (force n nl C (shift u v 0) c a) (force n nl C u c a)) by (intros q _; apply force_ext, shift_0).
    rewrite (integral_ext qs (tforce n nl A dt (shift u v 0) c a) (tforce n nl A dt u c a)).
    2: { intros q _. unfold tforce. apply sum_ext. intros r _. f_equal. apply Bt_ext, shift_0. }
    ring.
Qed.
Theorem C131_tangent : forall n m nl qs A dt u f0 j0 f j (v : dofs) (F : R -> dofs),
  thermal_residual n m nl qs A dt u true f0 j0 = Ok (f, j) ->
  (forall s, exists j', thermal_residual n m nl qs A dt (shift u v s) false f0 j0 = Ok (F s, j')) ->
  (forall c a, (c < 3)%nat -> is_derive (fun s => F s c a) 0 (times n (fun c a d b => j c a d b - j0 c a d b) v c a)) /\
  (forall c a d b, (3 <= c \/ 3 <= d)%nat -> j c a d b = j0 c a d b) /\ (forall c a, (3 <= c)%nat -> f c a = f0 c a) /\
  (nl = false -> forall c a, F 1 c a = F 0 c a).
Proof.
  intros n m nl qs A dt u f0 j0 f j v F H HF. apply checked_ok in H.
  assert (EF : forall s c a, (if Nat.ltb c 3 then f0 c a - integral qs (tforce n nl A dt (shift u v s) c a) else f0 c a) = F s c a).
  { intros s c a. destruct (HF s) as [j' E]. apply checked_ok in E. rewrite <- (thermal_fold n nl A dt (shift u v s) false qs c a f0 j0). now rewrite E. }
  split; [|split; [|split]].
  - intros c a Hc.
    assert (EF' : forall s, f0 c a + -1 * integral qs (tforce n nl A dt (shift u v s) c a) = F s c a).
    { intros s. rewrite <- EF. destruct (Nat.ltb_spec c 3); [ring|lia]. }
    eapply der_fun; [exact EF'|]. eapply der_eq; [apply der_plus; [apply (der_const (f0 c a))|apply der_scal]|].
    + apply der_int. intros q Hq. apply der_tforce; [apply hist_shift|exact Hc].
    + rewrite Rplus_0_l, <- integral_mul. unfold times.
      transitivity (integral qs (fun q => sum 3 (fun d => sum n (fun b => -1 * tgeo nl A dt c a d b q * v d b)))).
      { apply integral_ext. intros q _. rewrite <- sum_scal_l. apply sum_ext. intros d _. rewrite <- sum_scal_l. apply sum_ext. intros; ring. }
      rewrite integral_sum. apply sum_ext. intros d Hd. rewrite integral_sum. apply sum_ext. intros b _. rewrite integral_mulr, integral_mul. f_equal.
      assert (J := thermal_fold_j n nl A dt u true qs c a d b Hc Hd eq_refl f0 j0). rewrite H in J. cbn [snd] in J. rewrite J. ring.
  - intros c a d b Ho. assert (J := thermal_fold_out n nl A dt u true qs c a d b Ho f0 j0). now rewrite H in J.
  - intros c a Hc. assert (J := thermal_fold n nl A dt u true qs c a f0 j0). rewrite H in J. cbn [fst] in J. rewrite J.
    destruct (Nat.ltb_spec c 3); [lia|reflexivity].
  - intros N c a. rewrite <- !EF. destruct (Nat.ltb c 3); [|reflexivity]. f_equal. apply integral_ext. intros q _. unfold tforce.
    apply sum_ext. intros r _. f_equal. unfold Bt, Fd. rewrite N. reflexivity.
Qed.
(** a displacement whose strain is the thermal strain needs no forces *)
Theorem C131_free_expansion : forall n m nl qs C alpha A dt u req f0 j0 f1 j1 f j,
  (forall q r, In q qs -> (r < 6)%nat -> A q r = stress_vec (C q) (alpha q) r) ->
  (forall q r, In q qs -> (r < 6)%nat -> strain_vec nl n q u r = alpha q r * dt q) ->
  internal_residual n m nl qs C u req f0 j0 = Ok (f1, j1) ->
  thermal_residual n m nl qs A dt u req f1 j1 = Ok (f, j) ->
  forall c a, f c a = f0 c a.
Proof.
  intros n m nl qs C alpha A dt u req f0 j0 f1 j1 f j HA HE H HT c a.
  destruct (internal_spec _ _ _ _ _ _ _ _ _ _ _ H) as (F & _). apply checked_ok in HT.
  assert (FT : f c a = if Nat.ltb c 3 then f1 c a - integral qs (tforce n nl A dt u c a) else f1 c a).
  { rewrite <- (thermal_fold n nl A dt u req qs c a f1 j1). now rewrite HT. }
  rewrite FT, F. destruct (Nat.ltb c 3); [|reflexivity].
  rewrite (integral_ext qs (tforce n nl A dt u c a) (force n nl C u c a)); [ring|].
  intros q Hq. unfold tforce, force. apply sum_ext. intros r Hr. f_equal. rewrite HA by auto. unfold stress_at, stress_vec.
  rewrite <- sum_scal_r. apply sum_ext. intros s Hs. rewrite HE by auto. ring.
Qed.
(** heating the tetrahedron by 1 with expansion 1 in all directions *)
Definition exp6 (q : qpt) (r : nat) : R := if Nat.ltb r 3 then 1 else 0.
Definition grow : dofs := fun c a => if Nat.eqb a (S c) then 1 else 0.
Example C131_case : (forall q r, In q [tet_q] -> (r < 6)%nat -> exp6 q r = stress_vec (iso6 q) (exp6 q) r) /\
  (forall q r, In q [tet_q] -> (r < 6)%nat -> strain_vec false 4 q grow r = exp6 q r * 1).
Proof.
  split.
  - intros q r _ Hr. unfold stress_vec, iso6, exp6. destruct r as [|[|[|[|[|[|r]]]]]]; [..|exfalso; lia]; cbn; ring.
  - intros q r [<-|[]] Hr. unfold strain_vec, strain, grad, exp6, grow. destruct r as [|[|[|[|[|[|r]]]]]]; [..|exfalso; lia]; cbn; field.
Qed.

(** ** C132: pressure on a side *)
Lemma press_fold (g : qpt -> nat -> R) side c a : forall v : dofs,
  fold_left (fun v q c a => v c a + jxw q * (phi q a * g q c)) side v c a = v c a + integral side (fun q => phi q a * g q c).
Proof.
  induction side as [|q side IH]; intros v; [cbn [fold_left]; rewrite integral_nil; ring|]. cbn [fold_left]. rewrite IH, integral_cons. ring.
Qed.
Theorem C132_work : forall n side press f0 f v,
  surface_pressure_residual false side press f0 = Ok f ->
  dot n (fun c a => f c a - f0 c a) v = - integral side (fun q => press q * sum 3 (fun c => nrm q c * field_at n q v c)) /\
  (forall c a, (3 <= c)%nat -> f c a = f0 c a).
Proof.
  intros n side press f0 f v H. unfold surface_pressure_residual, assert_ in H. cbn [negb] in H. injection H as <-. split.
  - unfold dot. transitivity (sum 3 (fun c => sum n (fun a => integral side (fun q => - (phi q a * (press q * nrm q c) * v c a))))).
    { apply sum_ext. intros c Hc. apply sum_ext. intros a _. destruct (Nat.ltb_spec c 3); [|lia].
      rewrite (press_fold (fun q c => press q * nrm q c)).
      rewrite (integral_ext side (fun q => - (phi q a * (press q * nrm q c) * v c a)) (fun q => phi q a * (press q * nrm q c) * (- v c a))) by (intros; ring).
      rewrite integral_mulr. ring. }
    transitivity (integral side (fun q => sum 3 (fun c => sum n (fun a => - (phi q a * (press q * nrm q c) * v c a))))).
    { rewrite integral_sum. apply sum_ext. intros c _. now rewrite integral_sum. }
    transitivity (integral side (fun q => -1 * (press q * sum 3 (fun c => nrm q c * field_at n q v c)))).
    { apply integral_ext. intros q _. rewrite <- !sum_scal_l. apply sum_ext. intros c _. unfold field_at. rewrite <- !sum_scal_l. apply sum_ext. intros; ring. }
    rewrite integral_mul. ring.
  - intros c a Hc. destruct (Nat.ltb_spec c 3); [lia|reflexivity].
Qed.
Theorem C132_resultant : forall n side press f0 f,
  partition n side -> surface_pressure_residual false side press f0 = Ok f ->
  forall c, (c < 3)%nat -> sum n (fun a => f c a - f0 c a) = - integral side (fun q => press q * nrm q c).
Proof.
  intros n side press f0 f HP H c Hc. unfold surface_pressure_residual, assert_ in H. cbn [negb] in H. injection H as <-.
  destruct (Nat.ltb_spec c 3); [|lia].
  transitivity (sum n (fun a => -1 * integral side (fun q => phi q a * (press q * nrm q c)))).
  { apply sum_ext. intros a _. rewrite (press_fold (fun q c => press q * nrm q c)). ring. }
  rewrite sum_scal_l.
  transitivity (-1 * integral side (fun q => sum n (fun a => phi q a * (press q * nrm q c)))).
  { f_equal. now rewrite integral_sum. }
  rewrite (integral_ext side _ (fun q => press q * nrm q c)); [ring|]. intros q Hq. rewrite sum_scal_r.
  rewrite (HP q Hq). ring.
Qed.
Theorem C132_sensitivity : forall side (press : R -> qpt -> R) dpress t0 f0 fs (F : R -> dofs),
  (forall q, In q side -> is_derive (fun t => press t q) t0 (dpress q)) ->
  surface_pressure_residual_sensitivity false side dpress no_f = Ok fs ->
  (forall t, surface_pressure_residual false side (press t) f0 = Ok (F t)) ->
  forall c a, is_derive (fun t => F t c a) t0 (fs c a).
Proof.
  intros side press dpress t0 f0 fs F HD HS HF c a. unfold surface_pressure_residual_sensitivity, assert_ in HS. cbn [negb] in HS. injection HS as <-.
  assert (EF : forall t, (if Nat.ltb c 3 then f0 c a + -1 * integral side (fun q => phi q a * (press t q * nrm q c)) else f0 c a) = F t c a).
  { intros t. specialize (HF t). unfold surface_pressure_residual, assert_ in HF. cbn [negb] in HF. injection HF as E. rewrite <- E.
    destruct (Nat.ltb c 3); [|reflexivity]. rewrite (press_fold (fun q c => press t q * nrm q c)). ring. }
  eapply der_fun; [exact EF|]. rewrite (press_fold (fun q c => if Nat.ltb c 3 then dpress q * nrm q c else 0)). unfold no_f.
  destruct (Nat.ltb c 3).
  - apply (der_eq _ _ (0 + -1 * integral side (fun q => phi q a * (dpress q * nrm q c)))); [|ring].
    apply der_plus; [apply (der_const (f0 c a))|apply der_scal].
    apply (der_int side (fun t q => phi q a * (press t q * nrm q c))). intros q Hq. apply der_scal.
    apply (der_ext (fun t => nrm q c * press t q) _ t0 (nrm q c * dpress q)); [intros; ring|ring|]. apply der_scal. auto.
  - apply (der_eq _ _ 0); [apply (der_const (f0 c a))|]. rewrite integral_0 by (intros; ring). ring.
Qed.
Theorem C132_follower : forall side press f0, surface_pressure_residual true side press f0 = Fault AssertFailed /\
  surface_pressure_residual_sensitivity true side press f0 = Fault AssertFailed.
Proof. intros. split; reflexivity. Qed.
Example C132_case : partition 3 [mkQ (1/2) (fun _ => 0) (fun _ => 1/3) (fun _ _ => 0) (fun c => if Nat.eqb c 2 then 1 else 0)].
Proof. intros q [<-|[]]. cbn. field. Qed.

(** ** C133: inertia *)
Theorem C133_mass_matrix : forall diagonal n qs D acc f0 jm0 f jm,
  inertial_residual n diagonal qs D acc true f0 jm0 = Ok (f, jm) -> (forall c a, f0 c a = 0) -> (forall c a d b, jm0 c a d b = 0) ->
  forall c a, (c < 3)%nat -> f c a = times n jm acc c a.
Proof.
  intros diagonal n qs D acc f0 jm0 f jm H F0 J0 c a Hc. unfold inertial_residual in H. destruct qs as [|q0 qs].
  - destruct diagonal; [discriminate|]. injection H as <- <-. rewrite F0. symmetry. unfold times. apply sum_0. intros; apply sum_0. intros. rewrite J0. ring.
  - destruct diagonal.
    + injection H as <- <-. unfold times. cbv beta. destruct (Nat.ltb_spec c 3); [|lia]. reflexivity.
    + apply Ok_inj in H. cbv zeta in H. revert H.
      set (step := fun (fj : dofs * dmat) (q : qpt) => _).
      assert (G : forall l (fj : dofs * dmat), fst fj c a = times n (snd fj) acc c a -> fst (fold_left step l fj) c a = times n (snd (fold_left step l fj)) acc c a).
      { induction l as [|q l IH]; intros fj E; [exact E|]. cbn [fold_left]. apply IH. unfold step. cbn [fst snd].
        unfold addf, addj, times. destruct (Nat.ltb_spec c 3); [|lia]. rewrite E. unfold times. cbn [andb].
        transitivity (sum 3 (fun d => sum n (fun b => snd fj c a d b * acc d b + jxw q * (phi q a * (D q0 c d * phi q b)) * acc d b))).
        - transitivity (sum 3 (fun d => sum n (fun b => snd fj c a d b * acc d b) + sum n (fun b => jxw q * (phi q a * (D q0 c d * phi q b)) * acc d b))).
          + rewrite sum_plus. f_equal. rewrite <- !sum_scal_l. apply sum_ext. intros d _. rewrite <- !sum_scal_l. apply sum_ext. intros; ring.
          + apply sum_ext. intros d _. now rewrite <- sum_plus.
        - apply sum_ext. intros d Hd. apply sum_ext. intros b _. destruct (Nat.ltb_spec d 3); [ring|lia]. }
      intros H. assert (E := G (q0 :: qs) (f0, jm0)). rewrite H in E. cbn [fst snd] in E. apply E.
      rewrite F0. symmetry. unfold times. apply sum_0. intros; apply sum_0. intros. rewrite J0. ring.
Qed.
(** With a uniform inertia the consistent form does the virtual work of the inertia forces. *)
Theorem C133_consistent_partial : forall n qs (D0 : nat -> nat -> R) D acc req f0 jm0 f jm v,
  (forall q, In q qs -> D q = D0) ->
  inertial_residual n false qs D acc req f0 jm0 = Ok (f, jm) ->
  dot n (fun c a => f c a - f0 c a) v =
    integral qs (fun q => sum 3 (fun c => field_at n q v c * sum 3 (fun d => D q c d * field_at n q acc d))).
Proof.
  intros n qs D0 D acc req f0 jm0 f jm v HD H. unfold inertial_residual in H. destruct qs as [|q0 qs].
  - injection H as <- <-. rewrite integral_nil. unfold dot. apply sum_0. intros; apply sum_0. intros; ring.
  - apply Ok_inj in H. cbv zeta in H. revert H. rewrite (HD q0 (or_introl eq_refl)).
    set (step := fun (fj : dofs * dmat) (q : qpt) => _).
    assert (G : forall l (fj : dofs * dmat) c a, (c < 3)%nat -> fst (fold_left step l fj) c a = fst fj c a +
       integral l (fun q => phi q a * sum 3 (fun d => D0 c d * field_at n q acc d))).
    { induction l as [|q l IH]; intros fj c a Hc; [cbn [fold_left]; rewrite integral_nil; ring|]. cbn [fold_left]. rewrite IH by auto.
      rewrite integral_cons. unfold step at 1. cbn [fst]. unfold addf. destruct (Nat.ltb_spec c 3); [|lia].
      rewrite (sum_ext 3 (fun d => D0 c d * field_at n q acc d) (fun d => sum n (fun b => D0 c d * phi q b * acc d b))).
      2: { intros d _. unfold field_at. rewrite <- sum_scal_l. apply sum_ext. intros; ring. }
      ring. }
    intros H. unfold dot.
    transitivity (sum 3 (fun c => sum n (fun a => integral (q0 :: qs) (fun q => phi q a * sum 3 (fun d => D0 c d * field_at n q acc d)) * v c a))).
    { apply sum_ext. intros c Hc. apply sum_ext. intros a _. f_equal. assert (E := G (q0 :: qs) (f0, jm0) c a Hc). rewrite H in E. cbn [fst] in E. rewrite E. ring. }
    transitivity (integral (q0 :: qs) (fun q => sum 3 (fun c => sum n (fun a => phi q a * sum 3 (fun d => D0 c d * field_at n q acc d) * v c a)))).
    { rewrite integral_sum. apply sum_ext. intros c _. rewrite integral_sum. apply sum_ext. intros a _. now rewrite integral_mulr. }
    apply integral_ext. intros q Hq. apply sum_ext. intros c _. rewrite (HD q Hq). unfold field_at at 2. rewrite <- sum_scal_r. apply sum_ext. intros; ring.
Qed.
(** total force of a rigid acceleration: mass times acceleration, for both forms *)
Theorem C133_total_partial : forall diagonal n qs rho D acc (a0 : nat -> R) req f0 jm0 f jm,
  (0 < n)%nat -> partition n qs ->
  (forall q c d, In q qs -> D q c d = rho * delta c d) ->
  (forall c b, (b < n)%nat -> acc c b = a0 c) ->
  inertial_residual n diagonal qs D acc req f0 jm0 = Ok (f, jm) -> (forall c a, f0 c a = 0) -> (forall c a d b, jm0 c a d b = 0) ->
  forall c, (c < 3)%nat -> sum n (fun a => f c a) = integral qs (fun _ => rho) * a0 c.
Proof.
  intros diagonal n qs rho D acc a0 req f0 jm0 f jm Hn HP HD HA H F0 J0 c Hc.
  destruct diagonal.
  - unfold inertial_residual in H. destruct qs as [|q0 qs]; [discriminate|]. apply Ok_inj, (f_equal fst) in H. cbn [fst] in H. subst f. cbv beta zeta.
    destruct (Nat.ltb_spec c 3); [|lia].
    assert (V : forall l s, fold_left (fun v q => v + jxw q) l s = s + integral l (fun _ => 1)).
    { induction l as [|q l IH]; intros s; [cbn [fold_left]; rewrite integral_nil; ring|]. cbn [fold_left]. rewrite IH, integral_cons. ring. }
    rewrite V. set (vol := 0 + integral (q0 :: qs) (fun _ => 1)).
    rewrite (sum_ext n _ (fun a => vol / INR n * (rho * 1) * a0 c)).
    + rewrite sum_const. rewrite (integral_ext (q0 :: qs) (fun _ => rho) (fun _ => rho * 1)) by (intros; ring).
      rewrite integral_mul. unfold vol. field. apply not_0_INR. lia.
    + intros a Ha. rewrite (sum_single 3 c); [|exact Hc|].
      * rewrite (sum_single n a); [|exact Ha|].
        -- destruct (Nat.ltb_spec c 3); [|lia]. destruct (Nat.ltb_spec a n); [|lia]. rewrite !Nat.eqb_refl. cbn [andb].
           rewrite HD by (left; reflexivity). unfold delta. rewrite Nat.eqb_refl. now rewrite HA.
        -- intros b Hb Hne. destruct (Nat.eqb_spec b a); [contradiction|]. rewrite andb_false_r. cbn [andb]. rewrite J0. ring.
      * intros d Hd Hne. apply sum_0. intros b _. destruct (Nat.eqb_spec d c); [contradiction|]. rewrite andb_false_r. cbn [andb]. rewrite J0. ring.
  - assert (E := C133_consistent_partial n qs (fun c d => rho * delta c d) (fun q c d => rho * delta c d) acc req f0 jm0).
    assert (H' : inertial_residual n false qs (fun q c d => rho * delta c d) acc req f0 jm0 = Ok (f, jm)).
    { rewrite <- H. unfold inertial_residual. destruct qs as [|q0 qs]; [reflexivity|]. cbv zeta. f_equal.
      assert (S : forall (l : list qpt) (s1 s2 : dofs * dmat -> qpt -> dofs * dmat) fj, (forall fj q, s1 fj q = s2 fj q) -> fold_left s1 l fj = fold_left s2 l fj).
      { clear. induction l as [|q l IH]; intros s1 s2 fj E; [reflexivity|]. cbn [fold_left]. rewrite E. now apply IH. }
      apply S. intros fj q.
      assert (DD : (fun c d => rho * delta c d) = D q0).
      { apply FunctionalExtensionality.functional_extensionality. intros c'. apply FunctionalExtensionality.functional_extensionality. intros d'. symmetry. apply HD. now left. }
      rewrite <- DD. reflexivity. }
    specialize (E f jm (fun c' _ => delta c' c) (fun q _ => eq_refl) H').
    transitivity (dot n (fun c a => f c a - f0 c a) (fun c' _ => delta c' c)).
    + unfold dot. rewrite (sum_single 3 c); [|exact Hc|].
      * apply sum_ext. intros a _. unfold delta. rewrite Nat.eqb_refl, F0. ring.
      * intros k _ Hk. apply sum_0. intros a _. unfold delta. destruct (Nat.eqb_spec k c); [contradiction|ring].
    + rewrite E. rewrite <- integral_mulr. apply integral_ext. intros q Hq.
      assert (I1 : forall k, field_at n q (fun c' _ => delta c' c) k = delta k c).
      { intros k. unfold field_at. rewrite sum_scal_r. rewrite (HP q Hq). ring. }
      assert (I2 : forall k, field_at n q acc k = a0 k).
      { intros k. unfold field_at. rewrite (sum_ext n _ (fun a => phi q a * a0 k)) by (intros a Ha; now rewrite HA).
        rewrite sum_scal_r. rewrite (HP q Hq). ring. }
      rewrite (sum_single 3 c); [|exact Hc|intros k _ Hk; rewrite I1; unfold delta at 1; destruct (Nat.eqb_spec k c); [contradiction|ring]].
      rewrite I1. rewrite (sum_single 3 c); [|exact Hc|intros k _ Hk; unfold delta at 1; destruct (Nat.eqb_spec c k); [congruence|ring]].
      rewrite I2. unfold delta. rewrite Nat.eqb_refl. ring.
Qed.
(** A density that varies over the element: the value at the first point is used everywhere. *)
Definition bar_q (w x r : R) : qpt := mkQ w (fun _ => x) (fun a => if Nat.eqb a 0 then 1 else 0) (fun _ _ => 0) (fun _ => r).
Theorem C133_density_refuted : exists n qs D acc f jm,
  inertial_residual n false qs D acc true no_f no_j = Ok (f, jm) /\ partition n qs /\
  (forall q c d, In q qs -> D q c d = xyz q 0%nat * delta c d) /\ (forall c b, acc c b = 1) /\
  sum n (fun a => f 0%nat a) <> integral qs (fun q => xyz q 0%nat) * 1.
Proof.
  exists 1%nat, [bar_q 1 1 0; bar_q 1 3 0], (fun q c d => xyz q 0%nat * delta c d), (fun _ _ => 1).
  eexists. eexists. split; [reflexivity|]. split; [|split; [reflexivity|split; [reflexivity|]]].
  - intros q [<-|[<-|[]]]; cbn; ring.
  - unfold integral, total, lsum, delta. cbn. unfold addf, no_f, delta. cbn. lra.
Qed.
(** A diagonal mass overwrites what was in the vector before. *)
Theorem C133_overwrites_refuted : exists n qs D acc f0 f jm,
  inertial_residual n true qs D acc true f0 no_j = Ok (f, jm) /\ (forall c b, acc c b = 0) /\ f 0%nat 0%nat <> f0 0%nat 0%nat.
Proof.
  exists 1%nat, [bar_q 1 1 0], (fun q c d => delta c d), (fun _ _ => 0), (fun _ _ => 5).
  eexists. eexists. split; [reflexivity|]. split; [reflexivity|]. cbn. unfold no_j. lra.
Qed.
Example C133_case : exists f jm, inertial_residual 4 true [tet_q] (fun _ c d => 6 * delta c d) (fun _ _ => 2) true no_f no_j = Ok (f, jm) /\
  partition 4 [tet_q] /\ f 1%nat 2%nat = 1/2.
Proof.
  eexists. eexists. split; [reflexivity|]. split.
  - intros q [<-|[]]. cbn. field.
  - cbn. unfold delta, no_j. cbn. field.
Qed.

(** ** C134: reported stresses *)
Theorem C134_stress_partial : forall n m nl qs C u out,
  calculate_stress n m nl qs C u = Ok out -> length out = length qs /\
  forall k q s e, nth_error qs k = Some q -> nth_error out k = Some (s, e) ->
  forall r, (r < 6)%nat -> e r = strain_vec nl n q u r /\ s r = stress_vec (C q) (strain_vec nl n q u) r.
Proof.
  intros n m nl qs C u out H. apply checked_ok in H. subst out. split; [apply map_length|].
  intros k q s e Hq Ho r Hr. rewrite nth_error_map, Hq in Ho. cbn in Ho. injection Ho as <- <-. split.
  - now apply eps_eq.
  - exact (sig_eq n nl C q u r).
Qed.
(** the stress reported for free thermal expansion is not zero *)
Theorem C134_thermal_refuted : exists n qs C alpha A dt u f j f1 j1 s e,
  (forall q r, In q qs -> (r < 6)%nat -> A q r = stress_vec (C q) (alpha q) r) /\
  (forall q r, In q qs -> (r < 6)%nat -> strain_vec false n q u r = alpha q r * dt q) /\
  internal_residual n n false qs C u false no_f no_j = Ok (f1, j1) /\
  thermal_residual n n false qs A dt u false f1 j1 = Ok (f, j) /\ (forall c a, f c a = 0) /\
  calculate_stress n n false qs C u = Ok [(s, e)] /\ s 0%nat <> 0.
Proof.
  destruct C131_case as [A1 A2].
  destruct (proj1 (C126_runs 4 4 false [tet_q] iso6 grow false no_f no_j) eq_refl) as [[f1 j1] E].
  destruct (thermal_residual 4 4 false [tet_q] exp6 (fun _ => 1) grow false f1 j1) as [[f j]|] eqn:T; [|discriminate].
  exists 4%nat, [tet_q], iso6, exp6, exp6, (fun _ => 1), grow, f, j, f1, j1. eexists. eexists.
  split; [exact A1|]. split; [exact A2|]. split; [exact E|]. split; [exact T|]. split.
  - intros c a. exact (C131_free_expansion 4 4 false [tet_q] iso6 exp6 exp6 (fun _ => 1) grow false no_f no_j f1 j1 f j A1 A2 E T c a).
  - split; [reflexivity|].
    assert (S := sig_eq 4 false iso6 tet_q grow 0). cbv beta zeta. rewrite S. unfold stress_at, stress_vec.
    unfold strain_vec, strain, grad, iso6, grow. cbn. lra.
Qed.

Print Assumptions C126_runs. Print Assumptions C126_energy_gradient. Print Assumptions C126_virtual_work.
Print Assumptions C127_tangent. Print Assumptions C127_symmetric. Print Assumptions C127_semidefinite. Print Assumptions C127_unused.
Print Assumptions C128_objective. Print Assumptions C128_rigid. Print Assumptions C128_small_rigid.
Print Assumptions C129_resultant. Print Assumptions C129_moment. Print Assumptions C130_sensitivity.
Print Assumptions C131_energy. Print Assumptions C131_tangent. Print Assumptions C131_free_expansion.
Print Assumptions C132_work. Print Assumptions C132_resultant. Print Assumptions C132_sensitivity. Print Assumptions C132_follower.
Print Assumptions C133_mass_matrix. Print Assumptions C133_consistent_partial. Print Assumptions C133_total_partial.
Print Assumptions C133_density_refuted. Print Assumptions C133_overwrites_refuted.
Print Assumptions C134_stress_partial. Print Assumptions C134_thermal_refuted.
