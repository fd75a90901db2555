From Coq Require Import Reals Lra.
From Coquelicot Require Import Coquelicot.
From Coq Require Import List Arith Bool Lia.
From Verif Require Import Base BaseLemmas Sens_Spec Sens_Proofs Sens_Proofs2 Heat_Proofs Solid_Model Solid_Spec Solid_Proofs.
Import ListNotations.
Open Scope R_scope.
Ltac dof3 c := destruct c as [|[|[|c]]]; [| | |exfalso; lia].

(** *** integrals *)
Lemma integral_cons q qs g : integral (q :: qs) g = jxw q * g q + integral qs g.
Proof. reflexivity. Qed.
Lemma integral_nil g : integral [] g = 0.
Proof. reflexivity. Qed.
Lemma integral_ext qs g h : (forall q, In q qs -> g q = h q) -> integral qs g = integral qs h.
Proof. intros H. unfold integral. apply total_eq. intros q Hq. now rewrite H. Qed.
Lemma integral_add qs g h : integral qs (fun q => g q + h q) = integral qs g + integral qs h.
Proof. unfold integral. rewrite <- total_add. apply total_eq. intros; ring. Qed.
Lemma integral_mul k qs g : integral qs (fun q => k * g q) = k * integral qs g.
Proof. unfold integral. rewrite <- total_mul. apply total_eq. intros; ring. Qed.
Lemma integral_mulr k qs g : integral qs (fun q => g q * k) = integral qs g * k.
Proof. rewrite Rmult_comm, <- integral_mul. apply integral_ext. intros; ring. Qed.
Lemma integral_sum m qs (g : qpt -> nat -> R) : integral qs (fun q => sum m (g q)) = sum m (fun i => integral qs (fun q => g q i)).
Proof.
  unfold integral. rewrite <- (total_sum (fun q i => jxw q * g q i)). apply total_eq. intros q _. now rewrite sum_scal_l.
Qed.
Lemma integral_0 qs g : (forall q, In q qs -> g q = 0) -> integral qs g = 0.
Proof. intros H. unfold integral. apply total_zero. intros q Hq. rewrite H by auto. ring. Qed.
Lemma der_int qs (g : R -> qpt -> R) (d : qpt -> R) t0 :
  (forall q, In q qs -> is_derive (fun t => g t q) t0 (d q)) -> is_derive (fun t => integral qs (g t)) t0 (integral qs d).
Proof.
  intros H. unfold integral. apply (der_total qs (fun q t => jxw q * g t q) (fun q => jxw q * d q)).
  intros q Hq. apply der_scal. auto.
Qed.
Lemma der_eq (f : R -> R) (x a b : R) : is_derive f x a -> a = b -> is_derive f x b.
Proof. now intros H <-. Qed.
Lemma der_fun (f g : R -> R) (x a : R) : (forall t, f t = g t) -> is_derive f x a -> is_derive g x a.
Proof. intros H D. now apply (is_derive_ext f). Qed.

Section P.
Variable n_phi n_nodes : nat.
Variable nl : bool.
Notation Bt := (Bt n_phi nl).
Notation Fd := (Fd n_phi nl).
Notation stress_at := (stress_at n_phi nl).
Notation stiff := (stiff n_phi nl).

Definition force (C : qpt -> nat -> nat -> R) (u : dofs) (c a : nat) (q : qpt) : R :=
  sum 6 (fun r => Bt q u r c a * stress_at (C q) q u r).
Lemma internal_fold_f C u req qs c a : forall f j, fst (fold_left (internal_qp n_phi nl C u req) qs (f, j)) c a =
  if Nat.ltb c 3 then f c a + integral qs (force C u c a) else f c a.
Proof.
  induction qs as [|q qs IH]; intros f j.
  - cbn [fold_left fst]. destruct (Nat.ltb c 3); [rewrite integral_nil; ring|reflexivity].
  - cbn [fold_left]. destruct (internal_qp n_phi nl C u req (f, j) q) as [f' j'] eqn:E. rewrite IH.
    assert (F : fst (internal_qp n_phi nl C u req (f, j) q) c a = if Nat.ltb c 3 then f c a + jxw q * force C u c a q else f c a)
      by exact (internal_qp_f n_phi nl C u req f j q c a).
    rewrite E in F. cbn [fst] in F. rewrite F.
    rewrite integral_cons. destruct (Nat.ltb c 3); [ring|reflexivity].
Qed.
Lemma internal_fold_j C u qs c a d b : (c < 3)%nat -> (d < 3)%nat -> forall f j,
  snd (fold_left (internal_qp n_phi nl C u true) qs (f, j)) c a d b = j c a d b + integral qs (stiff C u c a d b).
Proof.
  intros Hc Hd. induction qs as [|q qs IH]; intros f j.
  - cbn [fold_left snd]. rewrite integral_nil. ring.
  - cbn [fold_left]. destruct (internal_qp n_phi nl C u true (f, j) q) as [f' j'] eqn:E. rewrite IH.
    assert (F := internal_qp_j n_phi nl C u f j q c a d b Hc Hd). rewrite E in F. cbn [snd] in F. rewrite F.
    rewrite integral_cons. ring.
Qed.
Lemma internal_fold_out C u req qs c a d b : (3 <= c \/ 3 <= d)%nat -> forall f j,
  snd (fold_left (internal_qp n_phi nl C u req) qs (f, j)) c a d b = j c a d b.
Proof.
  intros H. induction qs as [|q qs IH]; intros f j; [reflexivity|].
  cbn [fold_left]. destruct (internal_qp n_phi nl C u req (f, j) q) as [f' j'] eqn:E. rewrite IH.
  assert (F := internal_qp_out n_phi nl C u req f j q c a d b H). now rewrite E in F.
Qed.
Lemma internal_fold_not C u qs : forall f j, snd (fold_left (internal_qp n_phi nl C u false) qs (f, j)) = j.
Proof.
  induction qs as [|q qs IH]; intros f j; [reflexivity|].
  cbn [fold_left]. destruct (internal_qp n_phi nl C u false (f, j) q) as [f' j'] eqn:E. rewrite IH.
  assert (F := internal_qp_not n_phi nl C u f j q). now rewrite E in F.
Qed.
Lemma checked_ok {A} qs (x y : A) : checked n_phi n_nodes qs x = Ok y -> x = y.
Proof. unfold checked. destruct qs; [congruence|]. unfold assert_. destruct (Nat.eqb n_nodes n_phi); congruence. Qed.
Lemma checked_eq {A} qs (x : A) : n_nodes = n_phi -> checked n_phi n_nodes qs x = Ok x.
Proof. intros ->. unfold checked, assert_. rewrite Nat.eqb_refl. now destruct qs. Qed.
Lemma regularize_disp j c a d b : (c < 3 \/ d < 3)%nat -> regularize n_phi j c a d b = j c a d b.
Proof. intros H. unfold regularize. destruct (Nat.leb_spec 3 c), (Nat.leb_spec 3 d); try lia; reflexivity. Qed.

Lemma internal_spec qs C u req f j f' j' : internal_residual n_phi n_nodes nl qs C u req f j = Ok (f', j') ->
  (forall c a, f' c a = if Nat.ltb c 3 then f c a + integral qs (force C u c a) else f c a) /\
  (req = true -> forall c a d b, (c < 3)%nat -> (d < 3)%nat -> j' c a d b = j c a d b + integral qs (stiff C u c a d b)) /\
  (req = true -> forall c a d b, (3 <= c)%nat \/ (3 <= d)%nat -> j' c a d b = j c a d b +
      (if (Nat.leb 3 c && Nat.eqb c d && Nat.eqb a b)%bool then 1 / 10 ^ 20 * max_diag n_phi (snd (fold_left (internal_qp n_phi nl C u true) qs (f, j))) else 0)) /\
  (req = false -> j' = j).
Proof.
  unfold internal_residual. intros H. destruct (checked n_phi n_nodes qs _) as [fj|] eqn:E; [|discriminate].
  apply checked_ok in E. cbn [bind] in H. injection H as <- <-. subst fj. split; [|split; [|split]].
  - intros c a. apply internal_fold_f.
  - intros -> c a d b Hc Hd. rewrite regularize_disp by auto. now apply internal_fold_j.
  - intros -> c a d b H. unfold regularize. rewrite internal_fold_out by auto.
    destruct (Nat.leb_spec 3 c) as [Hc|Hc], (Nat.leb_spec 3 d) as [Hd|Hd]; cbn [andb]; try ring.
    + destruct (Nat.eqb c d && Nat.eqb a b)%bool; ring.
    + destruct (Nat.eqb_spec c d); [lia|]. cbn [andb]. ring.
  - intros ->. now rewrite internal_fold_not.
Qed.

(** *** derivatives along a history *)
Section D.
Variables (t0 : R) (u : R -> dofs) (du : dofs).
Hypothesis Hu : history n_phi t0 u du.
Lemma der_grad q i j : (i < 3)%nat -> is_derive (fun t => grad n_phi q (u t) i j) t0 (grad n_phi q du i j).
Proof.
  intros Hi. unfold grad. apply (der_sum n_phi (fun a t => u t i a * dphi q a j) (fun a => du i a * dphi q a j)).
  intros a Ha. apply (der_fun (fun t => dphi q a j * u t i a)); [intros; ring|].
  apply (der_eq _ _ (dphi q a j * du i a)); [|ring]. apply der_scal. now apply Hu.
Qed.
Lemma der_defgrad q i j : (i < 3)%nat -> is_derive (fun t => defgrad n_phi q (u t) i j) t0 (grad n_phi q du i j).
Proof.
  intros Hi. apply (der_eq _ _ (0 + grad n_phi q du i j)); [|ring].
  apply der_plus; [apply der_const|now apply der_grad].
Qed.
Definition dFd (q : qpt) (i j : nat) : R := if nl then grad n_phi q du i j else 0.
Lemma der_Fd q i j : (i < 3)%nat -> is_derive (fun t => Fd q (u t) i j) t0 (dFd q i j).
Proof. intros Hi. unfold Solid_Proofs.Fd, dFd. destruct nl; [now apply der_defgrad|apply der_const]. Qed.
Lemma row1_lt r : (row1 r < 3)%nat. Proof. destruct r as [|[|[|[|[|r]]]]]; cbn; lia. Qed.
Lemma row2_lt r : (row2 r < 3)%nat. Proof. destruct r as [|[|[|[|[|r]]]]]; cbn; lia. Qed.
Definition dBt (q : qpt) (r c a : nat) : R :=
  if Nat.ltb r 3 then dFd q c (row1 r) * dphi q a (row1 r)
  else dFd q c (row1 r) * dphi q a (row2 r) + dFd q c (row2 r) * dphi q a (row1 r).
Lemma der_Bt q r c a : (c < 3)%nat -> is_derive (fun t => Bt q (u t) r c a) t0 (dBt q r c a).
Proof.
  intros Hc. unfold Solid_Proofs.Bt, dBt.
  assert (M : forall i k, (i < 3)%nat -> is_derive (fun t => Fd q (u t) c i * k) t0 (dFd q c i * k)).
  { intros i k Hi. apply (der_fun (fun t => k * Fd q (u t) c i)); [intros; ring|].
    apply (der_eq _ _ (k * dFd q c i)); [|ring]. apply der_scal. now apply der_Fd. }
  destruct (Nat.ltb r 3); [apply M, row1_lt|]. apply der_plus; apply M; [apply row1_lt|apply row2_lt].
Qed.
Definition dstrain (q : qpt) (r : nat) : R := sum 3 (fun c => sum n_phi (fun a => Bt q (u t0) r c a * du c a)).
Lemma dstrain_eq q r : dstrain q r = if Nat.ltb r 3 then sum 3 (fun c => Fd q (u t0) c (row1 r) * grad n_phi q du c (row1 r))
  else sum 3 (fun c => Fd q (u t0) c (row1 r) * grad n_phi q du c (row2 r) + Fd q (u t0) c (row2 r) * grad n_phi q du c (row1 r)).
Proof.
  unfold dstrain, Solid_Proofs.Bt, grad. destruct (Nat.ltb r 3); apply sum_ext; intros c _.
  - rewrite <- sum_scal_l. apply sum_ext. intros; ring.
  - rewrite <- !sum_scal_l, <- sum_plus. apply sum_ext. intros; ring.
Qed.
Lemma der_strain q r : (r < 6)%nat -> is_derive (fun t => strain_vec nl n_phi q (u t) r) t0 (dstrain q r).
Proof.
  intros Hr. rewrite dstrain_eq. unfold strain_vec.
  assert (S : forall i j, (i < 3)%nat -> (j < 3)%nat -> is_derive (fun t => strain nl n_phi q (u t) i j) t0
     (1/2 * sum 3 (fun c => Fd q (u t0) c i * grad n_phi q du c j + Fd q (u t0) c j * grad n_phi q du c i))).
  { intros i j Hi Hj. unfold strain, Solid_Proofs.Fd. destruct nl.
    - apply der_scal. apply (der_fun (fun t => sum 3 (fun k => defgrad n_phi q (u t) k i * defgrad n_phi q (u t) k j) + - delta i j)); [intros; ring|].
      eapply der_eq; [apply der_plus; [|apply (der_const (- delta i j))]|].
      + apply (der_sum 3 (fun k t => defgrad n_phi q (u t) k i * defgrad n_phi q (u t) k j)
          (fun k => grad n_phi q du k i * defgrad n_phi q (u t0) k j + defgrad n_phi q (u t0) k i * grad n_phi q du k j)).
        intros k Hk. apply der_mult; now apply der_defgrad.
      + rewrite Rplus_0_r. apply sum_ext. intros; ring.
    - apply der_scal. eapply der_eq; [apply der_plus; apply der_grad; auto|].
      unfold delta. dof3 i; dof3 j; cbn [sum Nat.eqb]; ring. }
  apply (der_eq _ _ ((if Nat.ltb r 3 then 1 else 2) * (1/2 * sum 3 (fun c => Fd q (u t0) c (row1 r) * grad n_phi q du c (row2 r) + Fd q (u t0) c (row2 r) * grad n_phi q du c (row1 r))))).
  - apply der_scal. apply S; [apply row1_lt|apply row2_lt].
  - destruct r as [|[|[|[|[|[|r]]]]]]; [..|exfalso; lia]; cbn [row1 row2 Nat.ltb Nat.leb sum]; field.
Qed.

Variables (C : R -> qpt -> nat -> nat -> R) (dC : qpt -> nat -> nat -> R).
Lemma der_stress q r : (forall r s, (r < 6)%nat -> (s < 6)%nat -> is_derive (fun t => C t q r s) t0 (dC q r s)) -> (r < 6)%nat ->
  is_derive (fun t => stress_at (C t q) q (u t) r) t0
    (stress_at (dC q) q (u t0) r + sum 6 (fun s => C t0 q r s * dstrain q s)).
Proof.
  intros HC Hr. unfold Solid_Proofs.stress_at, stress_vec. rewrite <- sum_plus.
  apply (der_sum 6 (fun s t => C t q r s * strain_vec nl n_phi q (u t) s)
    (fun s => dC q r s * strain_vec nl n_phi q (u t0) s + C t0 q r s * dstrain q s)).
  intros s Hs. apply der_mult; [now apply HC|now apply der_strain].
Qed.
Lemma geo_work q s c a : (c < 3)%nat -> nl = true ->
  sum 6 (fun r => dBt q r c a * s r) = sum 3 (fun d => sum n_phi (fun b => geo q s c a d b * du d b)).
Proof.
  intros Hc N. unfold geo.
  transitivity (sum 3 (fun i => sum 3 (fun j => stress33 s i j * (dphi q a i * grad n_phi q du c j)))).
  - unfold dBt, dFd. rewrite N. cbn [sum row1 row2 Nat.ltb Nat.leb stress33]. ring.
  - assert (Z : forall d, sum n_phi (fun b => delta c d * sum 3 (fun i => sum 3 (fun j => stress33 s i j * (dphi q a i * dphi q b j))) * du d b)
       = delta c d * sum 3 (fun i => sum 3 (fun j => stress33 s i j * (dphi q a i * grad n_phi q du d j)))).
    { intros d. transitivity (sum n_phi (fun b => delta c d * (sum 3 (fun i => sum 3 (fun j => stress33 s i j * (dphi q a i * dphi q b j))) * du d b))); [apply sum_ext; intros; ring|].
      rewrite sum_scal_l. f_equal.
      transitivity (sum n_phi (fun b => sum 3 (fun i => sum 3 (fun j => stress33 s i j * (dphi q a i * dphi q b j) * du d b)))).
      { apply sum_ext. intros b _. rewrite <- sum_scal_r. apply sum_ext. intros i _. now rewrite <- sum_scal_r. }
      rewrite sum_swap. apply sum_ext. intros i _. rewrite sum_swap. apply sum_ext. intros j _.
      unfold grad. rewrite <- !sum_scal_l. apply sum_ext. intros; ring. }
    rewrite (sum_ext 3 _ _ (fun d _ => Z d)). clear Z. unfold delta. dof3 c; cbn [Nat.eqb]; cbn [sum]; ring.
Qed.
Lemma der_force q c a : (forall r s, (r < 6)%nat -> (s < 6)%nat -> is_derive (fun t => C t q r s) t0 (dC q r s)) -> (c < 3)%nat ->
  is_derive (fun t => force (C t) (u t) c a q) t0
    (sum 3 (fun d => sum n_phi (fun b => stiff (C t0) (u t0) c a d b q * du d b)) + force dC (u t0) c a q).
Proof.
  intros HC Hc. unfold force.
  eapply der_eq.
  - apply (der_sum 6 (fun r t => Bt q (u t) r c a * stress_at (C t q) q (u t) r)
      (fun r => dBt q r c a * stress_at (C t0 q) q (u t0) r
        + Bt q (u t0) r c a * (stress_at (dC q) q (u t0) r + sum 6 (fun s => C t0 q r s * dstrain q s)))).
    intros r Hr. apply der_mult; [now apply der_Bt|now apply der_stress].
  - rewrite (sum_ext 6 _ (fun r => (dBt q r c a * stress_at (C t0 q) q (u t0) r
        + Bt q (u t0) r c a * sum 6 (fun s => C t0 q r s * dstrain q s)) + Bt q (u t0) r c a * stress_at (dC q) q (u t0) r)) by (intros; ring).
    rewrite sum_plus. f_equal. rewrite sum_plus. unfold Solid_Proofs.stiff.
    assert (G : sum 6 (fun r => dBt q r c a * stress_at (C t0 q) q (u t0) r) =
       sum 3 (fun d => sum n_phi (fun b => (if nl then geo q (stress_at (C t0 q) q (u t0)) c a d b else 0) * du d b))).
    { destruct (bool_dec nl true) as [N|N]; [|apply not_true_is_false in N].
      - rewrite (geo_work q (stress_at (C t0 q) q (u t0)) c a Hc N). apply sum_ext. intros d _. apply sum_ext. intros b _.
        f_equal. now rewrite N.
      - transitivity 0; [apply sum_0; intros r _; unfold dBt, dFd; rewrite N; destruct (Nat.ltb r 3); ring|].
        symmetry. apply sum_0. intros d _. apply sum_0. intros; rewrite N; ring. }
    rewrite G.
    assert (M : sum 6 (fun r => Bt q (u t0) r c a * sum 6 (fun s => C t0 q r s * dstrain q s)) =
      sum 3 (fun d => sum n_phi (fun b => sum 6 (fun r => Bt q (u t0) r c a * sum 6 (fun s => C t0 q r s * Bt q (u t0) s d b)) * du d b))).
    { transitivity (sum 6 (fun r => sum 3 (fun d => sum n_phi (fun b => Bt q (u t0) r c a * sum 6 (fun s => C t0 q r s * Bt q (u t0) s d b) * du d b)))).
      - apply sum_ext. intros r _. unfold dstrain.
        transitivity (Bt q (u t0) r c a * sum 3 (fun d => sum n_phi (fun b => sum 6 (fun s => C t0 q r s * Bt q (u t0) s d b) * du d b))).
        + f_equal. transitivity (sum 6 (fun s => sum 3 (fun d => sum n_phi (fun b => C t0 q r s * Bt q (u t0) s d b * du d b)))).
          { apply sum_ext. intros s _. rewrite <- sum_scal_l. apply sum_ext. intros d _. rewrite <- sum_scal_l. apply sum_ext. intros; ring. }
          rewrite sum_swap. apply sum_ext. intros d _. rewrite sum_swap. apply sum_ext. intros b _. now rewrite sum_scal_r.
        + rewrite <- sum_scal_l. apply sum_ext. intros d _. rewrite <- sum_scal_l. apply sum_ext. intros; ring.
      - rewrite sum_swap. apply sum_ext. intros d _. rewrite sum_swap. apply sum_ext. intros b _. now rewrite sum_scal_r. }
    rewrite M. rewrite <- sum_plus. apply sum_ext. intros d _. rewrite <- sum_plus. apply sum_ext. intros; ring.
Qed.
(** virtual work *)
Lemma work_force (D : qpt -> nat -> nat -> R) qs : dot n_phi (fun c a => integral qs (force D (u t0) c a)) du =
  integral qs (fun q => sum 6 (fun r => stress_at (D q) q (u t0) r * dstrain q r)).
Proof.
  unfold dot.
  transitivity (integral qs (fun q => sum 3 (fun c => sum n_phi (fun a => force D (u t0) c a q * du c a)))).
  - rewrite integral_sum. apply sum_ext. intros c _. rewrite integral_sum. apply sum_ext. intros a _. now rewrite integral_mulr.
  - apply integral_ext. intros q _. unfold force, dstrain.
    transitivity (sum 3 (fun c => sum 6 (fun r => sum n_phi (fun a => Bt q (u t0) r c a * stress_at (D q) q (u t0) r * du c a)))).
    { apply sum_ext. intros c _. rewrite sum_swap. apply sum_ext. intros a _. now rewrite sum_scal_r. }
    rewrite sum_swap. apply sum_ext. intros r _. rewrite <- sum_scal_l. apply sum_ext. intros c _. rewrite <- sum_scal_l.
    apply sum_ext. intros; ring.
Qed.
Lemma der_energy (e0 : qpt -> nat -> R) qs : (forall q, In q qs -> symmetric6 (C t0 q)) ->
  is_derive (fun t => energy_from nl n_phi qs (C t0) e0 (u t)) t0
    (integral qs (fun q => sum 6 (fun r => (stress_at (C t0 q) q (u t0) r - stress_vec (C t0 q) (e0 q) r) * dstrain q r))).
Proof.
  intros HS. unfold energy_from. apply der_int. intros q Hq.
  eapply der_eq.
  - apply der_scal. apply (der_sum 6 (fun r t => (strain_vec nl n_phi q (u t) r - e0 q r) * stress_vec (C t0 q) (fun s => strain_vec nl n_phi q (u t) s - e0 q s) r)
      (fun r => dstrain q r * stress_vec (C t0 q) (fun s => strain_vec nl n_phi q (u t0) s - e0 q s) r
        + (strain_vec nl n_phi q (u t0) r - e0 q r) * sum 6 (fun s => C t0 q r s * dstrain q s))).
    assert (DE : forall r, (r < 6)%nat -> is_derive (fun t => strain_vec nl n_phi q (u t) r - e0 q r) t0 (dstrain q r)).
    { intros r Hr. apply (der_eq _ _ (dstrain q r + 0)); [|ring]. apply (der_plus _ (fun _ => - e0 q r)); [now apply der_strain|apply der_const]. }
    intros r Hr. apply (der_mult (fun t => strain_vec nl n_phi q (u t) r - e0 q r)
      (fun t => stress_vec (C t0 q) (fun s => strain_vec nl n_phi q (u t) s - e0 q s) r)); [now apply DE|].
    unfold stress_vec. apply (der_sum 6 (fun s t => C t0 q r s * (strain_vec nl n_phi q (u t) s - e0 q s)) (fun s => C t0 q r s * dstrain q s)).
    intros s Hs. apply der_scal. now apply DE.
  - rewrite sum_plus.
    assert (Sy : sum 6 (fun r => (strain_vec nl n_phi q (u t0) r - e0 q r) * sum 6 (fun s => C t0 q r s * dstrain q s)) =
       sum 6 (fun r => dstrain q r * stress_vec (C t0 q) (fun s => strain_vec nl n_phi q (u t0) s - e0 q s) r)).
    { transitivity (sum 6 (fun r => sum 6 (fun s => (strain_vec nl n_phi q (u t0) r - e0 q r) * (C t0 q r s * dstrain q s)))).
      { apply sum_ext. intros r _. now rewrite sum_scal_l. }
      rewrite sum_swap. apply sum_ext. intros s Hs. unfold stress_vec. rewrite <- sum_scal_l. apply sum_ext. intros r Hr.
      rewrite (HS q Hq r s) by auto. ring. }
    rewrite Sy. rewrite <- Rmult_plus_distr_l || idtac.
    transitivity (sum 6 (fun r => dstrain q r * stress_vec (C t0 q) (fun s => strain_vec nl n_phi q (u t0) s - e0 q s) r)); [field|].
    apply sum_ext. intros r _. unfold Solid_Proofs.stress_at, stress_vec. rewrite <- sum_minus.
    rewrite Rmult_comm. f_equal. apply sum_ext. intros; ring.
Qed.
End D.
End P.
