(** Proofs about the material cards: values. *)
From Coquelicot Require Import Coquelicot.
From Coq Require Import List Arith Bool Reals Lra Lia.
From Verif Require Import Base RBool Mat_Model Mat_Spec.
Import ListNotations.
Open Scope R_scope.

Lemma guard_ok {A} ds (k : outcome A) : Forall (fun d => d <> 0) ds -> guard ds k = k.
Proof. induction 1; cbn; auto. destruct (reqb x 0) eqn:E; auto. apply reqb_true in E. contradiction. Qed.
Lemma guard_inv {A} ds (k : outcome A) a : guard ds k = Ok a -> Forall (fun d => d <> 0) ds /\ k = Ok a.
Proof.
  induction ds as [|d ds IH]; cbn; intros H; auto.
  destruct (reqb d 0) eqn:E; [discriminate|]. apply reqb_false in E. destruct (IH H). auto.
Qed.
Ltac nz := repeat (apply Forall_cons || apply Forall_nil).
Ltac idx6 i := destruct i as [|[|[|[|[|[|i]]]]]]; [..|exfalso; lia].
Ltac idx3 i := destruct i as [|[|[|i]]]; [..|exfalso; lia].
Ltac idx2 i := destruct i as [|[|i]]; [..|exfalso; lia].

(** ** Isotropic values *)
Definition unok (o : outcome (mat R)) : mat R := match o with Ok m => m | Fault _ => mkMat 0 0 (fun _ _ => 0) end.


(** ** Elasticity follows from the law *)
Definition work (e s : vec) : R := e 0%nat * s 0%nat + e 1%nat * s 1%nat + e 2%nat * s 2%nat + e 3%nat * s 3%nat + e 4%nat * s 4%nat + e 5%nat * s 5%nat.
Definition reciprocal (H : vec -> vec -> Prop) : Prop := forall e s e' s', H e s -> H e' s' -> work e s' = work e' s.
Definition work_pos (H : vec -> vec -> Prop) : Prop :=
  forall e s, H e s -> (e 0%nat <> 0 \/ e 1%nat <> 0 \/ e 2%nat <> 0 \/ e 3%nat <> 0 \/ e 4%nat <> 0 \/ e 5%nat <> 0) -> 0 < work e s.
(** The product of the components a kind works with is the work of the full strain and stress. *)
Lemma law_pair k H e s e' s' : is_stiffness k -> law_of k H e s -> law_of k H e' s' ->
  exists e3 s3 e3' s3', H e3 s3 /\ H e3' s3' /\ work e3 s3 = sum (size_of k) (fun i => e i * s i) /\
    work e3 s3' = sum (size_of k) (fun i => e i * s' i) /\ work e3' s3 = sum (size_of k) (fun i => e' i * s i) /\
    (forall i, (i < size_of k)%nat -> e i <> 0 -> e3 0%nat <> 0 \/ e3 1%nat <> 0 \/ e3 2%nat <> 0 \/ e3 3%nat <> 0 \/ e3 4%nat <> 0 \/ e3 5%nat <> 0).
Proof.
  destruct k as [|[|]| | | | | |]; cbn [is_stiffness law_of size_of]; try contradiction; intros _.
  - intros (a & b & h) (a' & b' & h'). exists (bar e a b), (bar s 0 0), (bar e' a' b'), (bar s' 0 0). split; [exact h|]. split; [exact h'|].
    unfold work, bar; cbn. repeat split; try ring. intros i Hi Hn. idx2 i; tauto.
  - intros (a & h) (a' & h'). exists (plane e a), (plane s 0), (plane e' a'), (plane s' 0). split; [exact h|]. split; [exact h'|].
    unfold work, plane; cbn. repeat split; try ring. intros i Hi Hn. idx3 i; tauto.
  - intros (a & h) (a' & h'). exists (plane e 0), (plane s a), (plane e' 0), (plane s' a'). split; [exact h|]. split; [exact h'|].
    unfold work, plane; cbn. repeat split; try ring. intros i Hi Hn. idx3 i; tauto.
  - intros h h'. exists e, s, e', s'. split; [exact h|]. split; [exact h'|].
    unfold work; cbn. repeat split; try ring. intros i Hi Hn. idx6 i; tauto.
  - intros h h'. exists (shears e), (shears s), (shears e'), (shears s'). split; [exact h|]. split; [exact h'|].
    unfold work, shears; cbn. repeat split; try ring. intros i Hi Hn. idx2 i; tauto.
Qed.
Lemma sum_ext n f g : (forall i, (i < n)%nat -> f i = g i) -> sum n f = sum n g.
Proof. induction n; cbn; intros H; auto. rewrite IHn, H; auto. Qed.
Lemma sum_zero n f : (forall i, (i < n)%nat -> f i = 0) -> sum n f = 0.
Proof. induction n; cbn; intros H; auto. rewrite IHn, H; auto; lra. Qed.
Lemma sum_scal n c f : sum n (fun i => c * f i) = c * sum n f.
Proof. induction n; cbn; [lra|]. rewrite IHn; lra. Qed.
Lemma sum_one n j f : (j < n)%nat -> sum n (fun i => f i * (if Nat.eqb i j then 1 else 0)) = f j.
Proof.
  induction n; cbn; intros H; [lia|]. destruct (Nat.eqb_spec n j) as [->|Hn].
  - rewrite sum_zero; [lra|]. intros i Hi. destruct (Nat.eqb_spec i j); [lia|lra].
  - rewrite IHn; [lra|lia].
Qed.
Lemma elastic_of_law k H m : is_stiffness k -> rows m = size_of k -> cols m = size_of k ->
  reciprocal H -> work_pos H -> (forall e s, applies m (size_of k) e s <-> law_of k H e s) -> elastic m (size_of k).
Proof.
  intros K Hr Hc Rc Wp L. split; [auto|]. split; [auto|]. split.
  - intros i j Hi Hj.
    pose (u := fun (j a : nat) => if Nat.eqb a j then 1 else 0). pose (y := fun (j a : nat) => ent m a j).
    assert (Q : forall j, (j < size_of k)%nat -> law_of k H (u j) (y j)).
    { intros q Hq. apply L. intros a Ha. unfold y, u. rewrite sum_one with (f := fun b => ent m a b); auto. }
    destruct (law_pair k H _ _ _ _ K (Q i Hi) (Q j Hj)) as (e3 & s3 & e3' & s3' & h & h' & _ & P1 & P2 & _).
    pose proof (Rc _ _ _ _ h h') as E. rewrite P1, P2 in E.
    assert (X : forall a b, (a < size_of k)%nat -> sum (size_of k) (fun c => u a c * y b c) = ent m a b).
    { intros a b Ha. rewrite (sum_ext _ _ (fun c => y b c * u a c)) by (intros; ring). unfold u. rewrite sum_one with (f := y b); auto. }
    rewrite !X in E; auto.
  - intros x (i & Hi & Hx). pose (y := fun a => sum (size_of k) (fun b => ent m a b * x b)).
    assert (Q : law_of k H x y) by (apply L; intros a Ha; reflexivity).
    destruct (law_pair k H _ _ _ _ K Q Q) as (e3 & s3 & e3' & s3' & h & _ & P & _ & _ & N).
    rewrite (sum_ext _ _ (fun a => x a * y a)).
    + rewrite <- P. apply Wp; auto. eapply N; eauto.
    + intros a Ha. unfold y. apply sum_scal.
Qed.

(** ** The two laws *)
Lemma iso_reciprocal v : reciprocal (hooke_iso v).
Proof.
  intros e s e' s' (a0 & a1 & a2 & a3 & a4 & a5) (b0 & b1 & b2 & b3 & b4 & b5). unfold work.
  rewrite a0, a1, a2, a3, a4, a5, b0, b1, b2, b3, b4, b5. unfold Rdiv. ring.
Qed.
Lemma ort_reciprocal v : reciprocal (hooke_ort v).
Proof.
  intros e s e' s' (a0 & a1 & a2 & a3 & a4 & a5) (b0 & b1 & b2 & b3 & b4 & b5). unfold work.
  rewrite a0, a1, a2, a3, a4, a5, b0, b1, b2, b3, b4, b5. unfold Rdiv. ring.
Qed.
Lemma sq_pos x : x <> 0 -> 0 < x * x.
Proof. intros. nra. Qed.
(** A form given by a symmetric 3x3 matrix with positive leading minors. *)
Lemma form3_pos a b c d f g x y z :
  0 < a -> 0 < a * d - b * b -> 0 < a * d * g + 2 * b * f * c - c * c * d - f * f * a - b * b * g ->
  x <> 0 \/ y <> 0 \/ z <> 0 ->
  0 < a * x * x + d * y * y + g * z * z + 2 * b * x * y + 2 * c * x * z + 2 * f * y * z.
Proof.
  intros Ha Hm Hd N.
  set (F := _ + 2 * f * y * z).
  assert (I : a * (a * d - b * b) * F =
     (a * d - b * b) * ((a * x + b * y + c * z) * (a * x + b * y + c * z))
     + ((a * d - b * b) * y + (a * f - b * c) * z) * ((a * d - b * b) * y + (a * f - b * c) * z)
     + a * (a * d * g + 2 * b * f * c - c * c * d - f * f * a - b * b * g) * (z * z)) by (unfold F; ring).
  set (M := a * d - b * b) in *. set (D := a * d * g + 2 * b * f * c - c * c * d - f * f * a - b * b * g) in *.
  assert (P : 0 < a * M * F).
  { rewrite I. assert (T1 := Rle_0_sqr (a * x + b * y + c * z)). assert (T2 := Rle_0_sqr (M * y + (a * f - b * c) * z)).
    unfold Rsqr in *.
    assert (T3 : 0 <= M * ((a * x + b * y + c * z) * (a * x + b * y + c * z))) by (apply Rmult_le_pos; lra).
    assert (aD : 0 < a * D) by (apply Rmult_lt_0_compat; auto).
    destruct (Req_dec z 0) as [->|Hz].
    - destruct (Req_dec y 0) as [->|Hy].
      + assert (Hx : x <> 0) by tauto.
        replace ((a * x + b * 0 + c * 0) * (a * x + b * 0 + c * 0)) with (a * a * (x * x)) by ring.
        assert (0 < M * (a * a * (x * x))). { apply Rmult_lt_0_compat; auto. apply Rmult_lt_0_compat; [nra|apply sq_pos; auto]. }
        nra.
      + assert (0 < (M * y + (a * f - b * c) * 0) * (M * y + (a * f - b * c) * 0)).
        { replace (M * y + (a * f - b * c) * 0) with (M * y) by ring. apply sq_pos. apply Rmult_integral_contrapositive; lra. }
        nra.
    - assert (0 < a * D * (z * z)) by (apply Rmult_lt_0_compat; [auto|apply sq_pos; auto]). lra. }
  assert (aM : 0 < a * M) by (apply Rmult_lt_0_compat; auto).
  destruct (Rle_lt_dec F 0) as [Hn|]; auto. nra.
Qed.
Lemma iso_work_pos v : admissible_iso v -> work_pos (hooke_iso v).
Proof.
  intros [HE [H1 H2]] e s (a0 & a1 & a2 & a3 & a4 & a5) N. unfold work.
  set (E := v E_) in *. set (nu := v nu_) in *.
  assert (S0 : s 0%nat <> 0 \/ s 1%nat <> 0 \/ s 2%nat <> 0 \/ s 3%nat <> 0 \/ s 4%nat <> 0 \/ s 5%nat <> 0).
  { destruct (Req_dec (s 0%nat) 0) as [z0|]; [|tauto]. destruct (Req_dec (s 1%nat) 0) as [z1|]; [|tauto].
    destruct (Req_dec (s 2%nat) 0) as [z2|]; [|tauto]. destruct (Req_dec (s 3%nat) 0) as [z3|]; [|tauto].
    destruct (Req_dec (s 4%nat) 0) as [z4|]; [|tauto]. destruct (Req_dec (s 5%nat) 0) as [z5|]; [|tauto].
    exfalso. rewrite z0, z1, z2 in a0, a1, a2. rewrite z3 in a3. rewrite z4 in a4. rewrite z5 in a5.
    unfold Rdiv in *. rewrite !Rplus_0_r, !Rmult_0_r, !Rminus_0_r, !Rmult_0_l in *. tauto. }
  rewrite a0, a1, a2, a3, a4, a5.
  set (x := s 0%nat) in *. set (y := s 1%nat) in *. set (z := s 2%nat) in *. set (p := s 3%nat) in *. set (q := s 4%nat) in *. set (r := s 5%nat) in *.
  replace (_ + _) with (/ E * ((1 * x * x + 1 * y * y + 1 * z * z + 2 * (- nu) * x * y + 2 * (- nu) * x * z + 2 * (- nu) * y * z)
                        + 2 * (1 + nu) * (p * p + q * q + r * r))) by (field; lra).
  apply Rmult_lt_0_compat; [apply Rinv_0_lt_compat; auto|].
  assert (F : x <> 0 \/ y <> 0 \/ z <> 0 -> 0 < 1 * x * x + 1 * y * y + 1 * z * z + 2 * (- nu) * x * y + 2 * (- nu) * x * z + 2 * (- nu) * y * z).
  { intros X. apply form3_pos; auto; try nra.
    replace (_ - _) with ((1 + nu) * (1 + nu) * (1 - 2 * nu)) by ring. apply Rmult_lt_0_compat; [apply Rmult_lt_0_compat; lra|lra]. }
  assert (F0 : 0 <= 1 * x * x + 1 * y * y + 1 * z * z + 2 * (- nu) * x * y + 2 * (- nu) * x * z + 2 * (- nu) * y * z).
  { destruct (Req_dec x 0) as [->|]; [destruct (Req_dec y 0) as [->|]; [destruct (Req_dec z 0) as [->|]|]|]; [lra|left; apply F; auto..]. }
  assert (G0 : 0 <= 2 * (1 + nu) * (p * p + q * q + r * r)). { apply Rmult_le_pos; nra. }
  destruct S0 as [h|[h|[h|[h|[h|h]]]]]; [assert (0 < _) by (apply F; eauto); lra..| | |];
  (assert (0 < 2 * (1 + nu) * (p * p + q * q + r * r)); [apply Rmult_lt_0_compat; [lra|]; pose proof (sq_pos _ h); nra|lra]).
Qed.
Lemma ort_work_pos v : admissible_ort v -> work_pos (hooke_ort v).
Proof.
  intros (p1 & p2 & p3 & g1 & g2 & g3 & hm & hd) e s (a0 & a1 & a2 & a3 & a4 & a5) N. unfold work.
  set (E1 := v E11_) in *. set (E2 := v E22_) in *. set (E3 := v E33_) in *. set (n12 := v nu12_) in *. set (n23 := v nu23_) in *. set (n31 := v nu31_) in *.
  assert (S0 : s 0%nat <> 0 \/ s 1%nat <> 0 \/ s 2%nat <> 0 \/ s 3%nat <> 0 \/ s 4%nat <> 0 \/ s 5%nat <> 0).
  { destruct (Req_dec (s 0%nat) 0) as [z0|]; [|tauto]. destruct (Req_dec (s 1%nat) 0) as [z1|]; [|tauto].
    destruct (Req_dec (s 2%nat) 0) as [z2|]; [|tauto]. destruct (Req_dec (s 3%nat) 0) as [z3|]; [|tauto].
    destruct (Req_dec (s 4%nat) 0) as [z4|]; [|tauto]. destruct (Req_dec (s 5%nat) 0) as [z5|]; [|tauto].
    exfalso. rewrite z0, z1, z2 in a0, a1, a2. rewrite z3 in a3. rewrite z4 in a4. rewrite z5 in a5.
    unfold Rdiv in *. rewrite ?Rmult_0_r, ?Rmult_0_l, ?Rminus_0_r, ?Rplus_0_r in *. tauto. }
  rewrite a0, a1, a2, a3, a4, a5.
  set (x := s 0%nat) in *. set (y := s 1%nat) in *. set (z := s 2%nat) in *. set (p := s 3%nat) in *. set (q := s 4%nat) in *. set (r := s 5%nat) in *.
  replace (_ + _) with ((/ E1 * x * x + / E2 * y * y + / E3 * z * z + 2 * (- (n12 / E1)) * x * y + 2 * (- (n31 / E3)) * x * z + 2 * (- (n23 / E2)) * y * z)
                        + (/ v G12_ * (p * p) + / v G23_ * (q * q) + / v G13_ * (r * r))) by (field; repeat split; lra).
  assert (i1 := Rinv_0_lt_compat _ g1). assert (i2 := Rinv_0_lt_compat _ g2). assert (i3 := Rinv_0_lt_compat _ g3).
  assert (F : x <> 0 \/ y <> 0 \/ z <> 0 -> 0 < / E1 * x * x + / E2 * y * y + / E3 * z * z + 2 * (- (n12 / E1)) * x * y + 2 * (- (n31 / E3)) * x * z + 2 * (- (n23 / E2)) * y * z).
  { intros X. apply form3_pos; auto.
    - apply Rinv_0_lt_compat; auto.
    - replace (_ - _) with ((E1 - n12 * n12 * E2) * (/ E1 * / E1 * / E2)) by (field; lra).
      apply Rmult_lt_0_compat; [lra|]. repeat apply Rmult_lt_0_compat; apply Rinv_0_lt_compat; auto.
    - replace (_ - _) with ((1 - (n12 * n12 * (E2 / E1) + n23 * n23 * (E3 / E2) + n31 * n31 * (E1 / E3) + 2 * n12 * n23 * n31)) * (/ E1 * / E2 * / E3)) by (field; lra).
      apply Rmult_lt_0_compat; [lra|]. repeat apply Rmult_lt_0_compat; apply Rinv_0_lt_compat; auto. }
  assert (F0 : 0 <= / E1 * x * x + / E2 * y * y + / E3 * z * z + 2 * (- (n12 / E1)) * x * y + 2 * (- (n31 / E3)) * x * z + 2 * (- (n23 / E2)) * y * z).
  { destruct (Req_dec x 0) as [->|]; [destruct (Req_dec y 0) as [->|]; [destruct (Req_dec z 0) as [->|]|]|]; [lra|left; apply F; auto..]. }
  assert (q1 := Rle_0_sqr p). assert (q2 := Rle_0_sqr q). assert (q3 := Rle_0_sqr r). unfold Rsqr in *.
  assert (0 <= / v G12_ * (p * p)) by (apply Rmult_le_pos; lra). assert (0 <= / v G23_ * (q * q)) by (apply Rmult_le_pos; lra).
  assert (0 <= / v G13_ * (r * r)) by (apply Rmult_le_pos; lra).
  destruct S0 as [h|[h|[h|[h|[h|h]]]]]; [assert (0 < _) by (apply F; eauto); lra..| | |]; pose proof (sq_pos _ h);
  [assert (0 < / v G12_ * (p * p)) by (apply Rmult_lt_0_compat; lra)|assert (0 < / v G23_ * (q * q)) by (apply Rmult_lt_0_compat; lra)
  |assert (0 < / v G13_ * (r * r)) by (apply Rmult_lt_0_compat; lra)]; lra.
Qed.

(** ** Assignments *)
Fixpoint upds (l : list (nat * nat * R)) (f : nat -> nat -> R) : nat -> nat -> R :=
  match l with
  | [] => f
  | (i, j, x) :: r => upds r (upd2 f i j x)
  end.
Definition inb (r c : nat) (w : nat * nat * R) : bool := let '(i, j, _) := w in (Nat.ltb i r && Nat.ltb j c)%bool.
Lemma wr_eq l : forall r c f, forallb (inb r c) l = true -> wr l (mkMat r c f) = Ok (mkMat r c (upds l f)).
Proof.
  induction l as [|[[i j] x] l IH]; cbn [forallb wr upds]; intros r c f H; auto.
  apply andb_prop in H. destruct H as [H1 H2]. unfold inb in H1. unfold mset. cbn [rows cols ent]. rewrite H1. cbn [bind]. apply IH; auto.
Qed.
Lemma mk_eq l r c : forallb (inb r c) l = true -> mk r c l = Ok (mkMat r c (upds l (fun _ _ => 0))).
Proof. intros. apply wr_eq; auto. Qed.
Lemma madd_eq r c f g : madd (mkMat r c f) (mkMat r c g) = Ok (mkMat r c (fun i j => f i j + g i j)).
Proof. unfold madd. cbn. rewrite !Nat.eqb_refl. reflexivity. Qed.
Ltac mkred :=
  unfold mscl, corner_scl; cbn [bind rows cols ent];
  repeat (first [rewrite mk_eq by reflexivity | rewrite wr_eq by reflexivity | rewrite madd_eq]; cbn [bind rows cols ent]).
