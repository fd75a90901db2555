(** Proofs about the flow element: linear algebra, loops, homogeneity of the fluxes. *)
From Coq Require Import Reals.
From Coquelicot Require Import Coquelicot.
From Coq Require Import List Arith Bool Lra Lia.
From Verif Require Import Base BaseLemmas RBool Stre_Proofs Stre_Proofs2 Flui_Model Flui_Spec Flui_Proofs Flui_Proofs2 Flui_Proofs3 Flui_Proofs5 Flui_Proofs6 Flui_Props Heat_Proofs Sens_Proofs2 Cfe_Model Cfe_Spec.
Import ListNotations.
Open Scope R_scope.

(** ** A left inverse of a square matrix is a right inverse *)
Definition skip (p j : nat) : nat := if Nat.ltb j p then j else S j.
Lemma sum_skip n : forall p f, (p <= n)%nat -> sum (S n) f = f p + sum n (fun j => f (skip p j)).
Proof.
  induction n; intros p f H.
  - replace p with 0%nat by lia. cbn. ring.
  - destruct (Nat.eq_dec p (S n)) as [->|N].
    + change (sum (S (S n)) f) with (sum (S n) f + f (S n)). rewrite Rplus_comm. f_equal. apply sum_ext. intros k Hk. unfold skip. destruct (Nat.ltb_spec k (S n)); auto; lia.
    + change (sum (S (S n)) f) with (sum (S n) f + f (S n)). rewrite (IHn p) by lia.
      change (sum (S n) (fun j => f (skip p j))) with (sum n (fun j => f (skip p j)) + f (skip p n)).
      replace (skip p n) with (S n) by (unfold skip; destruct (Nat.ltb_spec n p); lia). ring.
Qed.
Lemma all_zero_or n (f : nat -> R) : (forall j, (j < n)%nat -> f j = 0) \/ exists j, (j < n)%nat /\ f j <> 0.
Proof.
  induction n; [left; intros; lia|]. destruct IHn as [H|(j & A & B)]; [|right; exists j; split; auto; lia].
  destruct (Req_EM_T (f n) 0) as [E|E]; [left|right; exists n; split; auto].
  intros j Hj. destruct (Nat.eq_dec j n) as [->|]; auto. apply H; lia.
Qed.
Lemma null_vector n : forall a : nat -> nat -> R, exists x, (exists j, (j < S n)%nat /\ x j <> 0) /\
  forall i, (i < n)%nat -> sum (S n) (fun j => a i j * x j) = 0.
Proof.
  induction n; intros a.
  - exists (fun _ => 1). split; [exists 0%nat; split; auto; lra|]. intros; lia.
  - destruct (all_zero_or (S (S n)) (a n)) as [Z|(p & Hp & NZ)].
    + destruct (IHn a) as (x & (j & Hj & Nj) & E). exists (fun k => if Nat.ltb k (S n) then x k else 0). split.
      * exists j. split; [lia|]. destruct (Nat.ltb_spec j (S n)); auto; lia.
      * intros i Hi. change (sum (S (S n)) (fun j0 => a i j0 * (if Nat.ltb j0 (S n) then x j0 else 0)))
          with (sum (S n) (fun j0 => a i j0 * (if Nat.ltb j0 (S n) then x j0 else 0)) + a i (S n) * (if Nat.ltb (S n) (S n) then x (S n) else 0)).
        rewrite Nat.ltb_irrefl. destruct (Nat.eq_dec i n) as [->|].
        -- rewrite sum_0; [ring|]. intros k Hk. rewrite Z by lia. ring.
        -- rewrite (sum_ext _ _ (fun j => a i j * x j)); [rewrite E by lia; ring|]. intros k Hk. destruct (Nat.ltb_spec k (S n)); auto; lia.
    + set (b := fun i j => a i (skip p j) - a i p * a n (skip p j) / a n p).
      destruct (IHn b) as (y & (j & Hj & Nj) & E).
      set (xp := - sum (S n) (fun j => a n (skip p j) * y j) / a n p).
      set (x := fun k => if Nat.eqb k p then xp else if Nat.ltb k p then y k else y (k - 1)%nat).
      assert (XP : x p = xp) by (unfold x; rewrite Nat.eqb_refl; auto).
      assert (XS : forall k, x (skip p k) = y k).
      { intros k. unfold x, skip. destruct (Nat.ltb_spec k p).
        - destruct (Nat.eqb_spec k p); [lia|]. destruct (Nat.ltb_spec k p); auto; lia.
        - destruct (Nat.eqb_spec (S k) p); [lia|]. destruct (Nat.ltb_spec (S k) p); [lia|]. f_equal. lia. }
      exists x. split.
      * exists (skip p j). rewrite XS. split; auto. unfold skip. destruct (Nat.ltb j p); lia.
      * intros i Hi. rewrite (sum_skip (S n) p) by lia. rewrite XP.
        rewrite (sum_ext _ _ (fun k => a i (skip p k) * y k)) by (intros; rewrite XS; auto).
        destruct (Nat.eq_dec i n) as [->|].
        -- unfold xp. field. auto.
        -- assert (Q := E i ltac:(lia)). unfold b in Q.
           rewrite (sum_ext _ _ (fun k => a i (skip p k) * y k - a i p / a n p * (a n (skip p k) * y k))) in Q by (intros; field; auto).
           rewrite sum_minus, sum_scal_l in Q. unfold xp. revert Q.
           generalize (sum (S n) (fun k => a i (skip p k) * y k)) (sum (S n) (fun k => a n (skip p k) * y k)). intros u w Q.
           replace u with (a i p / a n p * w) by lra. field. auto.
Qed.
Lemma inverse_both n (M N : nat -> nat -> R) :
  (forall i j, (i < n)%nat -> (j < n)%nat -> sum n (fun k => M i k * N k j) = if Nat.eqb i j then 1 else 0) ->
  forall i j, (i < n)%nat -> (j < n)%nat -> sum n (fun k => N i k * M k j) = if Nat.eqb i j then 1 else 0.
Proof.
  intros H i j Hi Hj.
  destruct (null_vector n (fun i k => if Nat.ltb k n then N i k else if Nat.eqb i j then 1 else 0)) as (x & (l & Hl & Nl) & E).
  assert (E' : forall i, (i < n)%nat -> sum n (fun k => N i k * x k) = - ((if Nat.eqb i j then 1 else 0) * x n)).
  { intros i0 H0. assert (Q := E i0 H0). cbn [sum] in Q. rewrite Nat.ltb_irrefl in Q.
    rewrite (sum_ext _ _ (fun k => N i0 k * x k)) in Q; [lra|]. intros k Hk. destruct (Nat.ltb_spec k n); auto; lia. }
  assert (X : forall l, (l < n)%nat -> x l = - (M l j * x n)).
  { intros l0 H0. transitivity (sum n (fun i => M l0 i * sum n (fun k => N i k * x k))).
    - rewrite (sum_ext _ _ (fun i => sum n (fun k => M l0 i * N i k * x k))) by (intros; rewrite <- sum_scal_l; apply sum_ext; intros; ring).
      rewrite sum_swap. rewrite (sum_single n l0); auto.
      + rewrite sum_scal_r, H by auto. rewrite Nat.eqb_refl. ring.
      + intros k Hk Nk. rewrite sum_scal_r, H by auto. destruct (Nat.eqb_spec l0 k); [congruence|ring].
    - rewrite (sum_ext _ _ (fun i => M l0 i * - ((if Nat.eqb i j then 1 else 0) * x n))) by (intros; rewrite E'; auto).
      rewrite (sum_single n j); auto.
      + rewrite Nat.eqb_refl. ring.
      + intros k Hk Nk. destruct (Nat.eqb_spec k j); [congruence|ring]. }
  assert (XN : x n <> 0).
  { intros Z. apply Nl. destruct (Nat.eq_dec l n) as [->|]; auto. rewrite X by lia. rewrite Z. ring. }
  assert (Q := E' i Hi). rewrite (sum_ext _ _ (fun k => - x n * (N i k * M k j))) in Q by (intros; rewrite X by auto; ring).
  rewrite sum_scal_l in Q. apply (Rmult_eq_reg_l (- x n)); [|lra]. rewrite Q. ring.
Qed.

(** ** Loops *)
Lemma each_ok {A} (dflt : A) n : forall f g, (forall c, (c < n)%nat -> f c = Ok (g c)) ->
  exists h, each dflt n f = Ok h /\ forall c, (c < n)%nat -> h c = g c.
Proof.
  induction n; intros f g H; cbn [each].
  - eexists; split; [reflexivity|]. intros; lia.
  - destruct (IHn f g) as (h & E & Q); [intros; apply H; lia|]. rewrite E. cbn [bind]. rewrite H by lia. cbn [bind].
    eexists; split; [reflexivity|]. intros c Hc. destruct (Nat.eq_dec c n) as [->|].
    + apply upd_same.
    + rewrite upd_other by auto. apply Q. lia.
Qed.
Lemma over_app {X St} (step : X -> St -> outcome St) l1 l2 s : over step (l1 ++ l2) s = bind (over step l1 s) (over step l2).
Proof. revert s. induction l1; intros s; cbn; auto. destruct (step a s); cbn; auto. Qed.
Lemma tot_ext {X} (f g : X -> R) l : (forall x, In x l -> f x = g x) -> tot f l = tot g l.
Proof. induction l; intros H; cbn; auto. rewrite H by (left; auto). f_equal. apply IHl. intros; apply H; right; auto. Qed.
Lemma tot_plus {X} (f g : X -> R) l : tot (fun x => f x + g x) l = tot f l + tot g l.
Proof. induction l; cbn; [ring|]. rewrite IHl. ring. Qed.
Lemma tot_scal {X} c (f : X -> R) l : tot (fun x => c * f x) l = c * tot f l.
Proof. induction l; cbn; [ring|]. rewrite IHl. ring. Qed.
Lemma tot_0 {X} (f : X -> R) l : (forall x, In x l -> f x = 0) -> tot f l = 0.
Proof. intros H. rewrite (tot_ext _ (fun _ => 0)) by auto. clear H. induction l; cbn; [ring|]. rewrite IHl. ring. Qed.
Lemma tot_app {X} (f : X -> R) l1 l2 : tot f (l1 ++ l2) = tot f l1 + tot f l2.
Proof. induction l1; cbn; [ring|]. rewrite IHl1. ring. Qed.
Lemma tot_sum {X} n (f : X -> nat -> R) l : sum n (fun k => tot (fun x => f x k) l) = tot (fun x => sum n (f x)) l.
Proof. induction l; cbn; [apply sum_0; auto|]. rewrite sum_plus, IHl. auto. Qed.
Lemma tot_der {X} (f : X -> R -> R) (g : X -> R) t0 l : (forall x, In x l -> is_derive (f x) t0 (g x)) -> is_derive (fun t => tot (fun x => f x t) l) t0 (tot g l).
Proof.
  induction l; intros H; cbn; [apply der_const|]. apply der_plus; [apply H; left; auto|]. apply IHl. intros; apply H; right; auto.
Qed.

(** ** Homogeneity: the flux is its own matrix times the state *)
Lemma adv_homog d c cp cv U : valid_dim d -> (c < d)%nat -> U 0%nat <> 0 -> cv <> 0 ->
  forall i, (i < 2 + d)%nat -> mvec (2 + d) (adv_jac_fn d c (cp - cv) cv (cp / cv) (prim_of d cp cv false U)) U i = flux_fn d c (prim_of d cp cv false U) i.
Proof.
  intros D C RH CV.
  dims D; destruct c as [|[|[|]]]; try lia; cbn [Nat.add]; below; ev; cbn; field; auto.
Qed.
Lemma flux_euler d c s : valid_dim d -> (c < d)%nat -> forall v, (v < 2 + d)%nat -> flux_fn d c s v = euler d c s v.
Proof. intros D C. dims D; destruct c as [|[|[|]]]; try lia; cbn [Nat.add]; below; ev; unfold euler, vel; cbn; ring. Qed.
