From Coq Require Import Reals List Arith Lia Lra Bool.
From Verif Require Import Base BaseLemmas Cont_Model Cont_Spec.
Import ListNotations.
Open Scope R_scope.

Lemma rlt_true a b : rlt a b = true <-> a < b.
Proof. unfold rlt. destruct (Rlt_dec a b); split; intros; auto; try discriminate; contradiction. Qed.
Lemma rlt_false a b : rlt a b = false <-> b <= a.
Proof. unfold rlt. destruct (Rlt_dec a b); split; intros; auto; try discriminate; lra. Qed.

(** ** step size *)
Section Arc.
  Variable c : cparams.
  Lemma factor_gt iter : (0 < desired_iters c)%nat -> 0 < change_exponent c ->
    let f := Rpower (INR (desired_iters c) / (INR iter + 1)) (change_exponent c) in
    0 < f /\ (1 < f <-> (S iter < desired_iters c)%nat) /\ (f < 1 <-> (desired_iters c < S iter)%nat) /\
    (f = 1 <-> desired_iters c = S iter).
  Proof.
    intros Hd He. cbn zeta. set (q := INR (desired_iters c) / (INR iter + 1)).
    assert (Hi : 0 < INR iter + 1) by (pose proof (pos_INR iter); lra).
    assert (Hdi : 0 < INR (desired_iters c)) by (apply lt_0_INR; auto).
    assert (Hq : 0 < q) by (unfold q; apply Rdiv_lt_0_compat; auto).
    assert (P : 0 < Rpower q (change_exponent c)) by apply exp_pos.
    assert (E1 : Rpower 1 (change_exponent c) = 1) by (unfold Rpower; now rewrite ln_1, Rmult_0_r, exp_0).
    assert (Q1 : 1 < q <-> (S iter < desired_iters c)%nat).
    { unfold q. split; intros H.
      - apply INR_lt. rewrite S_INR. apply (Rmult_lt_compat_r (INR iter + 1)) in H; auto.
        unfold Rdiv in H. rewrite Rmult_assoc, Rinv_l in H; lra.
      - apply lt_INR in H. rewrite S_INR in H. apply (Rmult_lt_reg_r (INR iter + 1)); auto.
        unfold Rdiv. rewrite Rmult_assoc, Rinv_l; lra. }
    assert (Q2 : q < 1 <-> (desired_iters c < S iter)%nat).
    { unfold q. split; intros H.
      - apply INR_lt. rewrite S_INR. apply (Rmult_lt_compat_r (INR iter + 1)) in H; auto.
        unfold Rdiv in H. rewrite Rmult_assoc, Rinv_l in H; lra.
      - apply lt_INR in H. rewrite S_INR in H. apply (Rmult_lt_reg_r (INR iter + 1)); auto.
        unfold Rdiv. rewrite Rmult_assoc, Rinv_l; lra. }
    assert (M : forall a b, 0 < a -> a < b -> Rpower a (change_exponent c) < Rpower b (change_exponent c)).
    { intros a b Ha Hab. unfold Rpower. apply exp_increasing. apply Rmult_lt_compat_l; auto. now apply ln_increasing. }
    assert (G : 1 < q -> 1 < Rpower q (change_exponent c)) by (intros; rewrite <- E1 at 1; apply M; lra).
    assert (L : q < 1 -> Rpower q (change_exponent c) < 1) by (intros; rewrite <- E1; apply M; lra).
    assert (Eq : q = 1 -> Rpower q (change_exponent c) = 1) by (intros ->; auto).
    assert (T : q < 1 \/ q = 1 \/ 1 < q) by lra.
    repeat split; auto; intros H.
    - apply Q1. destruct T as [T|[T|T]]; auto; [apply L in T|apply Eq in T]; lra.
    - apply G. now apply Q1.
    - apply Q2. destruct T as [T|[T|T]]; auto; [apply Eq in T|apply G in T]; lra.
    - apply L. now apply Q2.
    - destruct (Nat.lt_total (desired_iters c) (S iter)) as [A|[A|A]]; auto.
      + apply Q2, L in A; lra.
      + apply Q1, G in A; lra.
    - apply Eq. unfold q. rewrite H, S_INR. field; lra.
  Qed.

  Lemma next_arc_spec iter arc : (0 < desired_iters c)%nat -> 0 < change_exponent c -> iter <> 0%nat -> 0 < arc ->
    min_step c <= arc <= max_step c ->
    min_step c <= next_arc c iter arc <= max_step c /\
    ((S iter < desired_iters c)%nat -> arc <= next_arc c iter arc) /\
    (desired_iters c = S iter -> next_arc c iter arc = arc) /\
    ((desired_iters c < S iter)%nat -> next_arc c iter arc <= arc).
  Proof.
    intros Hd He Hi Ha Hb. destruct (factor_gt iter Hd He) as (P & G & L & E). unfold next_arc.
    apply Nat.eqb_neq in Hi. rewrite Hi.
    set (f := Rpower (INR (desired_iters c) / (INR iter + 1)) (change_exponent c)) in *.
    destruct (rlt 1 f) eqn:E1.
    - apply rlt_true in E1. apply G in E1 as E1'.
      assert (arc <= f * arc) by nra.
      unfold Rmin. destruct (Rle_dec (max_step c) (f * arc)); repeat split; try lra; intros; try lia; lra.
    - apply rlt_false in E1. destruct (rlt f 1) eqn:E2.
      + apply rlt_true in E2. apply L in E2 as E2'. assert (f * arc <= arc) by nra.
        unfold Rmax. destruct (Rle_dec (min_step c) (f * arc)); repeat split; try lra; intros; try lia; lra.
      + apply rlt_false in E2. assert (f = 1) by lra. apply E in H. repeat split; try lra; intros; lia.
  Qed.
End Arc.

(** ** the loop *)
Section Loop.
  Variables X D : Type.
  Variable c : cparams.
  Variable nr : R -> X -> D -> X * D.
  Variable norm : R -> X -> D -> R * D.
  Notation it := (iterate nr norm).
  Notation na := (norm_after nr norm).

  Lemma it_S arc m x d : it arc (S m) x d =
    let '(x1, d1) := it arc m x d in let '(x2, d2) := nr arc x1 d1 in (x2, snd (norm arc x2 d2)).
  Proof.
    simpl. destruct (it arc m x d) as [x1 d1]. destruct (nr arc x1 d1) as [x2 d2].
    destruct (norm arc x2 d2); reflexivity.
  Qed.

  (** within one trial, from iteration [iter] on *)
  Definition lim := Nat.max 1 (max_it c).

  Lemma trial_run norm0 x0 d0 arc x d : forall m fuel iter,
    (iter + m = lim)%nat -> (0 < m)%nat -> (m <= fuel)%nat ->
    (forall j, (1 <= j <= iter)%nat -> (j < max_it c)%nat -> converged c norm0 (na arc j x d) = false) ->
    let '(xi, di) := it arc iter x d in
    exists j, (iter < j <= lim)%nat /\
     (forall j', (1 <= j' < j)%nat -> (j' < max_it c)%nat -> converged c norm0 (na arc j' x d) = false) /\
     let '(xj, dj) := it arc j x d in
     ((j < max_it c)%nat /\ converged c norm0 (na arc j x d) = true /\
        nr_loop c nr norm fuel norm0 x0 d0 iter arc xi di = Ok (j, arc, xj, dj)) \/
     ((max_it c <= j)%nat /\ j = lim /\ arc <= min_step c /\
        nr_loop c nr norm fuel norm0 x0 d0 iter arc xi di = Ok (j, arc, xj, dj)) \/
     ((max_it c <= j)%nat /\ j = lim /\ min_step c < arc /\
        nr_loop c nr norm fuel norm0 x0 d0 iter arc xi di =
        nr_loop c nr norm (fuel - m) norm0 x0 d0 0 (Rmax (min_step c) (/2 * arc)) x0 d0).
  Proof.
    induction m as [|m IH]; intros fuel iter Hm Hpos Hf Hno; [lia|].
    destruct fuel as [|fuel]; [lia|].
    destruct (it arc iter x d) as [xi di] eqn:Ei.
    assert (EN : na arc (S iter) x d = fst (norm arc (fst (nr arc xi di)) (snd (nr arc xi di)))).
    { unfold norm_after. replace (S iter - 1)%nat with iter by lia. rewrite Ei. now destruct (nr arc xi di). }
    pose proof (it_S arc iter x d) as ES. rewrite Ei in ES.
    cbn [nr_loop]. destruct (nr arc xi di) as [x2 d2] eqn:E2. simpl in EN.
    destruct (norm arc x2 d2) as [r d3] eqn:E3. cbn [fst snd] in EN, ES.
    destruct (Nat.leb_spec (max_it c) (S iter)) as [Hle|Hlt].
    - exists (S iter). assert (HL : (S iter = lim)%nat) by (unfold lim in *; lia).
      assert (m = 0)%nat by lia. subst m.
      split; [lia|]. split; [intros; apply Hno; lia|].
      rewrite it_S, Ei, E2, E3. simpl.
      destruct (rlt (min_step c) arc) eqn:Ea.
      + right; right. repeat split; auto. now apply rlt_true. now rewrite Nat.sub_0_r.
      + right; left. repeat split; auto. now apply rlt_false.
    - destruct (converged c norm0 r) eqn:Ec.
      + exists (S iter). split; [unfold lim; lia|]. split; [intros; apply Hno; lia|].
        rewrite it_S, Ei, E2, E3. simpl. left. repeat split; auto. now rewrite EN.
      + assert (Hm0 : (0 < m)%nat) by (unfold lim in *; lia).
        specialize (IH fuel (S iter) ltac:(lia) Hm0 ltac:(lia)).
        rewrite ES in IH.
        destruct IH as (j & A & B & C0).
        { intros j Hj Hj2. destruct (Nat.eq_dec j (S iter)) as [->|]; [now rewrite EN|apply Hno; lia]. }
        exists j. split; [lia|]. split; auto.
  Qed.

  Lemma lim_pos : (0 < lim)%nat.
  Proof. unfold lim; lia. Qed.

  (** all trials *)
  Lemma all_trials norm0 x0 d0 N : forall fuel arc x d, arc <= 2 ^ N * min_step c -> 0 < min_step c ->
    (S N * lim <= fuel)%nat ->
    exists k j, (k <= N)%nat /\ (1 <= j <= lim)%nat /\
      let xs := if Nat.eqb k 0 then x else x0 in let ds := if Nat.eqb k 0 then d else d0 in
      let ak := trial_arc (min_step c) arc k in
      let '(xj, dj) := it ak j xs ds in
      nr_loop c nr norm fuel norm0 x0 d0 0 arc x d = Ok (j, ak, xj, dj) /\
      (forall k', (k' < k)%nat -> min_step c < trial_arc (min_step c) arc k') /\
      (((j < max_it c)%nat /\ converged c norm0 (na ak j xs ds) = true) \/ (j = lim /\ ak <= min_step c)).
  Proof.
    induction N as [|N IH]; intros fuel arc x d Ha Hmin Hf.
    - pose proof (trial_run norm0 x0 d0 arc x d lim fuel 0 ltac:(lia) lim_pos ltac:(lia) ltac:(intros; lia)) as T.
      simpl in T. destruct T as (j & Hj & Hno & T). exists 0%nat, j. split; [lia|]. split; [lia|]. simpl.
      destruct (it arc j x d) as [xj dj]. destruct T as [(A & B & C0)|[(A & B & C0 & E)|(A & B & C0 & E)]].
      + split; auto. split; [intros; lia|]. left; auto.
      + split; auto. split; [intros; lia|]. right; auto.
      + simpl in Ha. lra.
    - assert (HL : (S N * lim <= fuel - lim)%nat) by (simpl in *; lia).
      assert (HL2 : (lim <= fuel)%nat) by (simpl in Hf; lia).
      pose proof (trial_run norm0 x0 d0 arc x d lim fuel 0 ltac:(lia) lim_pos HL2 ltac:(intros; lia)) as T.
      simpl in T. destruct T as (j & Hj & Hno & T). destruct (it arc j x d) as [xj dj] eqn:Ej.
      destruct T as [(A & B & C0)|[(A & B & C0 & E)|(A & B & C0 & E)]].
      + exists 0%nat, j. split; [lia|]. split; [lia|]. simpl. rewrite Ej.
        split; auto. split; [intros; lia|]. left; auto.
      + exists 0%nat, j. split; [lia|]. split; [lia|]. simpl. rewrite Ej.
        split; auto. split; [intros; lia|]. right; auto.
      + set (arc1 := Rmax (min_step c) (/2 * arc)) in *.
        assert (Ha1 : arc1 <= 2 ^ N * min_step c).
        { assert (1 <= 2 ^ N) by (apply pow_R1_Rle; lra).
          unfold arc1, Rmax. destruct (Rle_dec _ _); [simpl in Ha; lra|nra]. }
        assert (Htr : forall k, trial_arc (min_step c) arc (S k) = trial_arc (min_step c) arc1 k).
        { induction k as [|k IHk]; simpl in *.
          - unfold arc1. f_equal. lra.
          - now rewrite IHk. }
        destruct (IH (fuel - lim)%nat arc1 x0 d0 Ha1 Hmin HL) as (k & j2 & Hk & Hj2 & R0).
        exists (S k), j2. split; [lia|]. split; [auto|]. simpl Nat.eqb. cbn iota.
        rewrite Htr.
        replace (if Nat.eqb k 0 then x0 else x0) with x0 in R0 by (destruct (Nat.eqb k 0); auto).
        replace (if Nat.eqb k 0 then d0 else d0) with d0 in R0 by (destruct (Nat.eqb k 0); auto).
        cbn zeta in R0 |- *. destruct (it (trial_arc (min_step c) arc1 k) j2 x0 d0) as [xk dk].
        destruct R0 as (R1 & R2 & R3). split; [now rewrite E, R1|]. split; auto.
        intros [|k'] Hk'; [auto|]. rewrite Htr. apply R2. lia.
  Qed.

  Lemma pow2_unbounded a m : 0 < m -> exists N, a <= 2 ^ N * m.
  Proof.
    intros Hm. destruct (Pow_x_infinity 2 ltac:(rewrite Rabs_right; lra) (a / m)) as (N & HN).
    exists N. specialize (HN N ltac:(lia)). rewrite Rabs_right in HN by (apply Rle_ge, pow_le; lra).
    apply Rge_le in HN. apply (Rmult_le_compat_r m) in HN; [|lra]. unfold Rdiv in HN. rewrite Rmult_assoc, Rinv_l in HN; lra.
  Qed.

  Lemma csolve_characterised arc x d : 0 < min_step c ->
    exists fuel k j, (1 <= j <= lim)%nat /\
      let d1 := snd (norm arc x d) in let norm0 := fst (norm arc x d) in
      let ds := if Nat.eqb k 0 then d1 else d in
      let ak := trial_arc (min_step c) arc k in
      let '(xj, dj) := it ak j x ds in
      (forall fuel', (fuel <= fuel')%nat -> csolve c nr norm fuel' arc x d = Ok (j, next_arc c j ak, xj, dj)) /\
      (forall k', (k' < k)%nat -> min_step c < trial_arc (min_step c) arc k') /\
      (((j < max_it c)%nat /\ converged c norm0 (na ak j x ds) = true) \/ (j = lim /\ ak <= min_step c)).
  Proof.
    intros Hmin. destruct (pow2_unbounded arc (min_step c) Hmin) as (N & HN).
    destruct (norm arc x d) as [norm0 d1] eqn:En. cbn [fst snd].
    destruct (all_trials norm0 x d N (S N * lim) arc x d1 HN Hmin ltac:(lia)) as (k & j & Hk & Hj & R0).
    exists (S N * lim)%nat, k, j. split; auto. cbn zeta in *.
    replace (if Nat.eqb k 0 then x else x) with x in R0 by (destruct (Nat.eqb k 0); auto).
    destruct (it (trial_arc (min_step c) arc k) j x (if Nat.eqb k 0 then d1 else d)) as [xj dj].
    destruct R0 as (R1 & R2 & R3). split; auto.
    intros fuel' Hf. unfold csolve. rewrite En.
    assert (Mono : forall f1 f2 it0 a x1 d2 r, nr_loop c nr norm f1 norm0 x d it0 a x1 d2 = Ok r -> (f1 <= f2)%nat ->
       nr_loop c nr norm f2 norm0 x d it0 a x1 d2 = Ok r).
    { induction f1 as [|f1 IH]; intros f2 it0 a x1 d2 r H1 H2; [discriminate|].
      destruct f2 as [|f2]; [lia|]. cbn [nr_loop] in *. destruct (nr a x1 d2) as [x3 d3]. destruct (norm a x3 d3) as [rr d4].
      destruct (Nat.leb (max_it c) (S it0)).
      - destruct (rlt (min_step c) a); [apply IH; auto; lia|auto].
      - destruct (converged c norm0 rr); [auto|apply IH; auto; lia]. }
    rewrite (Mono _ _ _ _ _ _ _ R1 Hf). reflexivity.
  Qed.
End Loop.

(** ** linear algebra *)
Lemma dot_scal_r n a u s : dot n a (fun i => s * u i) = s * dot n a u.
Proof. unfold dot. rewrite <- sum_scal_l. apply sum_ext; intros; ring. Qed.

Lemma schur_residual n slv J f dfdp gv dgdX dgdp g dX dp : exact_solver n slv J ->
  schur n slv J f dfdp gv dgdX dgdp g = (dX, dp) -> solves_residual n J f dfdp dX dp.
Proof.
  intros (Hs & _) H i Hi. unfold schur in H. inversion H; subst; clear H. rewrite Hs by auto. ring.
Qed.

Lemma schur_constraint n slv J f dfdp gv dgdX dgdp g dX dp : exact_solver n slv J ->
  (forall v, gv = Some v -> forall i, (i < n)%nat -> sum n (fun j => J i j * v j) = - dfdp i) ->
  (let v := match gv with Some v => v | None => fun i => - slv J dfdp i end in dgdp + sum n (fun j => dgdX j * v j) <> 0) ->
  schur n slv J f dfdp gv dgdX dgdp g = (dX, dp) -> solves_constraint n dgdX dgdp g dX dp.
Proof.
  intros (Hs & Hinj) Hgv Ha H. unfold schur in H.
  set (v := match gv with Some v => v | None => fun i => -1 * slv J dfdp i end) in *.
  assert (Hv : forall i, (i < n)%nat -> sum n (fun j => J i j * v j) = - dfdp i).
  { intros i Hi. unfold v. destruct gv as [w|]; [now apply Hgv|].
    rewrite (sum_ext n (fun j => J i j * (-1 * slv J dfdp j)) (fun j => -1 * (J i j * slv J dfdp j))) by (intros; ring).
    rewrite sum_scal_l, Hs by auto. ring. }
  assert (Ha' : dgdp + dot n dgdX v <> 0).
  { unfold dot, v. destruct gv; auto. intros E; apply Ha. rewrite <- E at 1. f_equal. apply sum_ext; intros; ring. }
  set (a := dgdp + dot n dgdX v) in *.
  injection H as HdX Hdp. subst dX. rewrite Hdp.
  set (dX := slv J (fun i => -1 * (f i + dp * dfdp i))).
  assert (EdX : forall j, (j < n)%nat -> dX j = - slv J f j + dp * v j).
  { intros j Hj. assert (Z : dX j - (- slv J f j + dp * v j) = 0); [|lra].
    apply (Hinj (fun j => dX j - (- slv J f j + dp * v j))); auto. intros i Hi.
    rewrite (sum_ext n (fun j => J i j * (dX j - (- slv J f j + dp * v j)))
       (fun j => J i j * dX j + (J i j * slv J f j + - dp * (J i j * v j)))) by (intros; ring).
    rewrite !sum_plus, sum_scal_l. unfold dX at 1. rewrite !Hs, Hv by auto. ring. }
  unfold solves_constraint.
  rewrite (sum_ext n (fun j => dgdX j * dX j) (fun j => -1 * (dgdX j * slv J f j) + dp * (dgdX j * v j)))
    by (intros; rewrite EdX by auto; ring).
  rewrite sum_plus, !sum_scal_l. fold (dot n dgdX (slv J f)). fold (dot n dgdX v).
  assert (Edp : a * dp = - g + dot n dgdX (slv J f)). { rewrite <- Hdp. change (a * (1 / a * (- g + dot n dgdX (slv J f))) = - g + dot n dgdX (slv J f)). field. exact Ha'. }
  unfold a in Edp. lra.
Qed.

Lemma sum_S n f : sum (S n) f = sum n f + f n.
Proof. reflexivity. Qed.

Lemma bordered_ok n big J f dfdp dgdX dgdp g dX dp :
  exact_big n big (bordered_matrix n J dfdp dgdX dgdp) ->
  bordered n big J f dfdp dgdX dgdp g = (dX, dp) ->
  solves_residual n J f dfdp dX dp /\ solves_constraint n dgdX dgdp g dX dp.
Proof.
  intros Hb H. unfold bordered in H. injection H as HX Hp.
  set (sol := big (bordered_matrix n J dfdp dgdX dgdp) (bordered_rhs n f g)) in *.
  assert (EX : forall j, (j < n)%nat -> dX j = sol j).
  { intros j Hj. rewrite <- HX. apply Nat.ltb_lt in Hj. now rewrite Hj. }
  split.
  - intros i Hi. pose proof (Hb (bordered_rhs n f g) i ltac:(lia)) as E. fold sol in E. rewrite sum_S in E.
    unfold bordered_matrix in E at 2. unfold bordered_rhs in E. rewrite Nat.eqb_refl in E.
    destruct (Nat.eqb_spec i n); [lia|].
    rewrite (sum_ext n _ (fun j => J i j * dX j)) in E.
    + rewrite Hp in E. lra.
    + intros j Hj. unfold bordered_matrix. destruct (Nat.eqb_spec i n); [lia|].
      destruct (Nat.eqb_spec j n); [lia|]. now rewrite EX.
  - pose proof (Hb (bordered_rhs n f g) n ltac:(lia)) as E. fold sol in E. rewrite sum_S in E.
    unfold bordered_matrix in E at 2. unfold bordered_rhs in E. rewrite !Nat.eqb_refl in E.
    rewrite (sum_ext n _ (fun j => dgdX j * dX j)) in E.
    + rewrite Hp in E. unfold solves_constraint. lra.
    + intros j Hj. unfold bordered_matrix. rewrite Nat.eqb_refl.
      destruct (Nat.eqb_spec j n); [lia|]. now rewrite EX.
Qed.

(** ** C21 *)
Lemma dot_nonneg n u : 0 <= dot n u u.
Proof. unfold dot. apply sum_nonneg. intros. nra. Qed.

Lemma arc_unit n sign xs ps dXdp : sign = 1 \/ sign = -1 -> ps <> 0 ->
  let dpds := arc_dpds n sign xs ps dXdp in
  let dXds := fun i => xs * dXdp i * (dpds / ps) in     (* scaled dX/ds: X_scale dX/dp dp/ds *)
  dot n dXds dXds + dpds ^ 2 = 1.
Proof.
  intros Hs Hp dpds dXds. unfold dXds, dot.
  rewrite (sum_ext n _ (fun i => (xs / ps * dpds)^2 * (dXdp i * dXdp i))) by (intros; field; auto).
  rewrite sum_scal_l. fold (dot n dXdp dXdp).
  assert (Hpos : 0 < (xs / ps)^2 * dot n dXdp dXdp + 1).
  { pose proof (dot_nonneg n dXdp). pose proof (pow2_ge_0 (xs / ps)). nra. }
  assert (E : dpds ^ 2 = 1 / ((xs / ps)^2 * dot n dXdp dXdp + 1)).
  { unfold dpds, arc_dpds. rewrite Rpow_mult_distr, pow2_sqrt.
    - destruct Hs as [->| ->]; ring.
    - left. apply Rdiv_lt_0_compat; lra. }
  replace ((xs / ps * dpds) ^ 2 * dot n dXdp dXdp + dpds ^ 2) with
    (((xs / ps)^2 * dot n dXdp dXdp + 1) * dpds ^ 2) by ring.
  rewrite E. set (q := (xs / ps)^2 * dot n dXdp dXdp + 1) in *. field. lra.
Qed.

Lemma dot_plus_l n u w v : dot n (fun i => u i + w i) v = dot n u v + dot n w v.
Proof. unfold dot. rewrite <- sum_plus. apply sum_ext; intros; ring. Qed.
Lemma arc_gradient n sign xs ps arc X0 p0 dXdp X p dX dp : ps <> 0 ->
  arc_g n sign xs ps arc X0 p0 dXdp (fun i => X i + dX i) (p + dp) - arc_g n sign xs ps arc X0 p0 dXdp X p =
  dot n (arc_dgdX n sign xs ps dXdp) dX + arc_dgdp n sign xs ps dXdp * dp.
Proof.
  intros Hp. unfold arc_g, arc_dgdp.
  replace (dot n (arc_dgdX n sign xs ps dXdp) dX) with
    (xs * (arc_dpds n sign xs ps dXdp * xs / ps) * dot n dX dXdp).
  2:{ unfold dot, arc_dgdX. rewrite <- sum_scal_l. apply sum_ext; intros; ring. }
  replace (dot n (fun i => X i + dX i - X0 i) dXdp) with (dot n (fun i => X i - X0 i) dXdp + dot n dX dXdp).
  2:{ rewrite <- dot_plus_l. apply sum_ext; intros; ring. }
  field. auto.
Qed.

Lemma normalise_unit n t tp t1 t1p : tp * tp + dot n t t <> 0 -> normalise n t tp = (t1, t1p) ->
  dot n t1 t1 + t1p ^ 2 = 1 /\
  exists s, 0 < s /\ (forall i, t1 i = s * t i) /\ t1p = s * tp.
Proof.
  intros H E. unfold normalise in E. pose proof (dot_nonneg n t) as Hd.
  assert (Hsq : (sqrt (dot n t t))^2 = dot n t t) by now apply pow2_sqrt.
  rewrite Hsq in E. injection E as E1 E2.
  assert (Hq : 0 < tp * tp + dot n t t) by (pose proof (Rle_0_sqr tp) as Q; unfold Rsqr in Q; lra).
  set (val := sqrt (tp * tp + dot n t t)) in *.
  assert (Hv : 0 < val) by (now apply sqrt_lt_R0).
  assert (Hv2 : val * val = tp * tp + dot n t t) by (apply sqrt_sqrt; lra).
  subst t1 t1p. split.
  - unfold dot at 1. rewrite (sum_ext n _ (fun i => (1/val)^2 * (t i * t i))) by (intros; ring).
    rewrite sum_scal_l. fold (dot n t t). replace (dot n t t) with (val * val - tp * tp) by lra. field. lra.
  - exists (1 / val). split; [apply Rdiv_lt_0_compat; lra|]. split; auto. field. lra.
Qed.

Lemma pseudo_dir_ok n slv big (us : bool) xs ps J dfdp t0 t0p t1 t1p :
  let df : vec := fun i => xs / ps * dfdp i in
  (us = true -> exact_solver n slv J /\ t0p + sum n (fun j => t0 j * - slv J df j) <> 0) ->
  (us = false -> exact_big n big (bordered_matrix n J df t0 t0p)) ->
  pseudo_direction n slv big us xs ps J dfdp t0 t0p = (t1, t1p) ->
  dot n t1 t1 + t1p ^ 2 = 1 /\                                             (* unit *)
  (forall i, (i < n)%nat -> sum n (fun j => J i j * t1 j) + xs / ps * dfdp i * t1p = 0) /\  (* tangent *)
  0 < dot n t0 t1 + t0p * t1p.                                             (* keeps its orientation *)
Proof.
  intros df Hs Hb H. unfold pseudo_direction in H. fold df in H.
  set (zero := (fun _ : nat => 0) : vec) in *.
  assert (K : exists t tp, normalise n t tp = (t1, t1p) /\ solves_residual n J zero df t tp /\
              solves_constraint n t0 t0p (-1) t tp).
  { destruct us.
    - destruct (Hs eq_refl) as (He & Ha).
      destruct (schur n slv J zero df None t0 t0p (-1)) as [t tp] eqn:E.
      exists t, tp. split; auto. split; [eapply schur_residual; eauto|].
      eapply (schur_constraint n slv J zero df None); eauto. intros; discriminate.
    - destruct (bordered n big J zero df t0 t0p (-1)) as [t tp] eqn:E.
      exists t, tp. split; auto. eapply bordered_ok; eauto. }
  destruct K as (t & tp & EN & R1 & R2). unfold solves_constraint in R2. fold (dot n t0 t) in R2.
  assert (NZ : tp * tp + dot n t t <> 0).
  { intros Z. assert (tp = 0) by (pose proof (dot_nonneg n t); nra).
    assert (Zt : dot n t t = 0) by nra.
    assert (dot n t0 t = 0).
    { (* Cauchy-Schwarz at zero: every t j = 0 *)
      assert (Aux : forall m, (m <= n)%nat -> sum m (fun i => t i * t i) = 0 -> forall j, (j < m)%nat -> t j = 0).
      { induction m as [|m IHm]; intros Hm Hz j Hj; [lia|]. simpl in Hz.
        assert (0 <= sum m (fun i => t i * t i)) by (apply sum_nonneg; intros; nra).
        assert (sum m (fun i => t i * t i) = 0) by nra. assert (t m = 0) by nra.
        destruct (Nat.eq_dec j m); [subst; auto|]. apply IHm; auto; lia. }
      unfold dot. rewrite (sum_ext n _ (fun _ => 0)); [apply sum_0; auto|].
      intros j Hj. rewrite (Aux n ltac:(lia) Zt j Hj). ring. }
    subst tp. lra. }
  destruct (normalise_unit n t tp t1 t1p NZ EN) as (U & s & Hs0 & Et & Etp).
  split; auto. split.
  - intros i Hi. specialize (R1 i Hi). rewrite (sum_ext n _ (fun j => s * (J i j * t j))) by (intros; rewrite Et; ring).
    rewrite sum_scal_l, Etp. unfold zero, df in R1. replace (sum n (fun j => J i j * t j)) with (- (xs / ps * dfdp i * tp)) by lra. ring.
  - unfold dot. rewrite (sum_ext n _ (fun j => s * (t0 j * t j))) by (intros; rewrite Et; ring).
    rewrite sum_scal_l, Etp. fold (dot n t0 t). replace (dot n t0 t) with (1 - t0p * tp) by lra. lra.
Qed.

Lemma pseudo_gradient n xs ps arc X0 p0 t1 t1p X p dX dp :
  pseudo_g n xs ps arc X0 p0 t1 t1p (fun i => X i + dX i) (p + dp) - pseudo_g n xs ps arc X0 p0 t1 t1p X p =
  dot n (fun i => xs * t1 i) dX + (t1p * ps) * dp.
Proof.
  unfold pseudo_g.
  replace (dot n (fun i => xs * t1 i) dX) with (xs * dot n dX t1).
  2:{ unfold dot. rewrite <- sum_scal_l. apply sum_ext; intros; ring. }
  replace (dot n (fun i => X i + dX i - X0 i) t1) with (dot n (fun i => X i - X0 i) t1 + dot n dX t1).
  2:{ rewrite <- dot_plus_l. apply sum_ext; intros; ring. }
  ring.
Qed.

Lemma init_arc_sqrt2 n dX dp : dp <> 0 -> dot n dX dX <> 0 -> init_arc n dX dp = sqrt 2.
Proof.
  intros Hp Hx. unfold init_arc, init_scales. pose proof (dot_nonneg n dX).
  f_equal. assert (E : (1 / Rabs dp) ^ 2 * dp * dp = 1).
  { unfold Rdiv. rewrite Rmult_1_l. assert (Rabs dp <> 0) by now apply Rabs_no_R0.
    assert (Rabs dp * Rabs dp = dp * dp) by (rewrite <- Rabs_mult; apply Rabs_right; nra).
    rewrite Rmult_assoc, <- H1. field; auto. }
  rewrite E. rewrite pow2_sqrt by lra. unfold Rdiv. rewrite Rmult_1_l, pow_inv, pow2_sqrt by lra. field. auto.
Qed.
Lemma pseudo_init_unit n dX dp t tp : dp <> 0 -> dot n dX dX <> 0 -> pseudo_init n dX dp = (t, tp) ->
  dot n t t + tp ^ 2 = 1.
Proof.
  intros Hp Hx E. unfold pseudo_init, init_scales in E. rewrite init_arc_sqrt2 in E by auto.
  injection E as E1 E2. subst t tp. pose proof (dot_nonneg n dX).
  assert (S2 : sqrt 2 * sqrt 2 = 2) by (apply sqrt_sqrt; lra).
  assert (S2p : sqrt 2 <> 0) by (assert (0 < sqrt 2) by (apply sqrt_lt_R0; lra); lra).
  set (nx := sqrt (dot n dX dX)). assert (Hnx : nx * nx = dot n dX dX) by (apply sqrt_sqrt; lra).
  assert (nx <> 0) by (intros Z; rewrite Z in Hnx; lra).
  assert (Rabs dp <> 0) by now apply Rabs_no_R0.
  assert (Hr : Rabs dp * Rabs dp = dp * dp) by (rewrite <- Rabs_mult; apply Rabs_right; nra).
  unfold dot at 1. rewrite (sum_ext n _ (fun i => (1 / nx / sqrt 2)^2 * (dX i * dX i))) by (intros; ring).
  rewrite sum_scal_l. fold (dot n dX dX). rewrite <- Hnx.
  replace ((1 / nx / sqrt 2) ^ 2 * (nx * nx)) with (1 / (sqrt 2 * sqrt 2)) by (field; auto).
  replace ((1 / Rabs dp * dp / sqrt 2) ^ 2) with ((dp * dp) / (Rabs dp * Rabs dp) / (sqrt 2 * sqrt 2)) by (field; auto).
  rewrite S2, <- Hr. field. auto.
Qed.

(** ** the constraint *)
Lemma unit_component n u up t tp arc : dot n t t + tp ^ 2 = 1 -> 0 <= arc -> dot n u t + up * tp = arc ->
  arc <= sqrt (dot n u u + up ^ 2).
Proof.
  intros U Ha H.
  assert (E : 0 <= dot n (fun i => u i - arc * t i) (fun i => u i - arc * t i)) by apply dot_nonneg.
  assert (E2 : dot n (fun i => u i - arc * t i) (fun i => u i - arc * t i) =
               dot n u u - 2 * arc * dot n u t + arc ^ 2 * dot n t t).
  { unfold dot. clear. induction n as [|n IH]; cbn [sum]; [ring|]. rewrite IH. ring. }
  rewrite E2 in E. pose proof (Rle_0_sqr (up - arc * tp)) as F. unfold Rsqr in F.
  rewrite <- (sqrt_square arc) by auto. apply sqrt_le_1_alt. nra.
Qed.
Lemma pseudo_constraint n xs ps arc X0 p0 t1 t1p X p :
  let u := scaled_step xs X0 X in let up := ps * (p - p0) in
  (pseudo_g n xs ps arc X0 p0 t1 t1p X p = 0 <-> dot n u t1 + up * t1p = arc) /\
  (dot n t1 t1 + t1p ^ 2 = 1 -> 0 <= arc -> pseudo_g n xs ps arc X0 p0 t1 t1p X p = 0 ->
   arc <= sqrt (dot n u u + up ^ 2)) /\
  pseudo_g n xs ps arc X0 p0 t1 t1p X0 p0 = - arc.
Proof.
  intros u up.
  assert (E : pseudo_g n xs ps arc X0 p0 t1 t1p X p = dot n u t1 + up * t1p - arc).
  { unfold pseudo_g, u, up, scaled_step, dot. f_equal. f_equal. rewrite <- sum_scal_l. apply sum_ext; intros; ring. }
  split; [rewrite E; split; lra|]. split.
  - intros U Ha G. eapply unit_component; eauto. lra.
  - unfold pseudo_g, dot. rewrite (sum_ext n _ (fun _ => 0 * 0)) by (intros; ring). rewrite sum_scal_l. ring.
Qed.
Lemma arc_constraint n sign xs ps arc X0 p0 dXdp X p : sign = 1 \/ sign = -1 -> ps <> 0 ->
  let dpds := arc_dpds n sign xs ps dXdp in
  let t1 := fun i => xs * dXdp i * (dpds / ps) in
  let u := scaled_step xs X0 X in let up := ps * (p - p0) in
  (arc_g n sign xs ps arc X0 p0 dXdp X p = 0 <-> dot n u t1 + up * dpds = arc) /\
  (0 <= arc -> arc_g n sign xs ps arc X0 p0 dXdp X p = 0 -> arc <= sqrt (dot n u u + up ^ 2)) /\
  arc_g n sign xs ps arc X0 p0 dXdp X0 p0 = - arc.
Proof.
  intros Hs Hp dpds t1 u up.
  assert (P : forall Y q, arc_g n sign xs ps arc X0 p0 dXdp Y q = pseudo_g n xs ps arc X0 p0 t1 dpds Y q).
  { intros. unfold arc_g, pseudo_g. fold dpds. f_equal. f_equal. f_equal. unfold t1, dot.
    rewrite (sum_ext n (fun i => (Y i - X0 i) * (xs * dXdp i * (dpds / ps)))
      (fun i => (dpds * xs / ps) * ((Y i - X0 i) * dXdp i))) by (intros; field; auto).
    rewrite sum_scal_l. field; auto. }
  rewrite !P. destruct (pseudo_constraint n xs ps arc X0 p0 t1 dpds X p) as (A & B & C).
  split; [exact A|]. split; [|exact C]. intros Ha G. apply B; auto. apply (arc_unit n sign xs ps dXdp Hs Hp).
Qed.
