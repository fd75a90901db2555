(** Proofs about the callbacks of the coupled solver. *)
From Coq Require Import Reals.
From Coquelicot Require Import Coquelicot.
From Coq Require Import List Arith Bool Permutation Lia Lra FunctionalExtensionality.
From Verif Require Import Base BaseLemmas Sens_Model Sens_Spec Sens_Proofs Sens_Proofs2 Mph_Model Mph_Spec Mph_Proofs Mph_Proofs2.
Import ListNotations.
Open Scope R_scope.

Section Call.
Variables (np nd : nat) (loc : nat -> nat -> nat).
Notation is := (index_set np nd loc).
Notation sz := (n_of np loc).
Notation same := (same np nd loc).
Notation subs := (subs np nd loc).
Implicit Types (s : mst) (x : vec).

Lemma get_ok' s D i : complete nd s D -> (i < nd)%nat -> get_system_assembly nd s i = Ok (D i).
Proof. intros C Hi. unfold get_system_assembly. destruct (Nat.ltb_spec i nd); [|lia]. cbn. now rewrite C. Qed.
Lemma same_refl X : same X X. Proof. easy. Qed.
Lemma same_sym X Y : same X Y -> same Y X. Proof. intros H i k Hi Hk. symmetry. now apply H. Qed.
Lemma same_trans X Y Z : same X Y -> same Y Z -> same X Z.
Proof. intros H G i k Hi Hk. rewrite H; auto. Qed.
Lemma enf_at D X i k : enf (d_row (D i)) (X i) k = constrained_sols D X i k.
Proof. reflexivity. Qed.
Lemma enf_ext n d x y k : rows_ok n d -> (forall j, (j < n)%nat -> x j = y j) -> (k < n)%nat -> enf (d_row d) x k = enf (d_row d) y k.
Proof.
  intros R H Hk. unfold enf. destruct (d_row d k) as [[r c]|] eqn:E; [|auto]. f_equal. apply total_ext.
  intros [j w] Hj. cbn. now rewrite H by (apply (R k r c E j w Hj)).
Qed.
Lemma hom_ext n d x y k : rows_ok n d -> (forall j, (j < n)%nat -> x j = y j) -> (k < n)%nat -> enf_hom (d_row d) x k = enf_hom (d_row d) y k.
Proof.
  intros R H Hk. unfold enf_hom. destruct (d_row d k) as [[r c]|] eqn:E; [|auto]. apply total_ext.
  intros [j w] Hj. cbn. now rewrite H by (apply (R k r c E j w Hj)).
Qed.
Lemma hom_id n d x k : satisfies_hom n d x -> (k < n)%nat -> enf_hom (d_row d) x k = x k.
Proof. intros S Hk. unfold enf_hom. destruct (d_row d k) as [[r c]|] eqn:E; auto. symmetry. exact (S k r c Hk E). Qed.

Lemma constrain_ok s D x : complete nd s D -> (forall i, (i < nd)%nat -> rows_ok (sz i) (D i)) ->
  exists x', constrain_all np nd loc s x = Ok x' /\ same (subs x') (constrained_sols D (subs x)) /\
    forall g, (n_all np nd loc <= g)%nat -> x' g = x g.
Proof.
  intros C RW. unfold constrain_all.
  destruct (loop_inv (fun m y => (forall i k, (i < nd)%nat -> (k < sz i)%nat ->
      subs y i k = if (i <? m)%nat then constrained_sols D (subs x) i k else subs x i k) /\
      forall g, (n_all np nd loc <= g)%nat -> y g = x g) nd
    (fun i x => d <- get_system_assembly nd s i ;; Ok (put (is i) (enf (d_row d) (sub (is i) x)) x)) x) as (x' & E & H & O).
  - split; auto.
  - intros m y Hm [I O]. rewrite (get_ok' s D) by auto. cbn [bind]. eexists; split; [reflexivity|]. split.
    + intros i k Hi Hk. unfold Mph_Model.subs. destruct (Nat.eq_dec i m).
      * subst m. rewrite sub_put_same by auto. destruct (Nat.ltb_spec i (S i)); [|lia].
        rewrite <- enf_at. apply (enf_ext (sz i)); auto. intros j Hj. change (sub (is i) y j) with (subs y i j). rewrite (I i j) by auto.
        destruct (Nat.ltb_spec i i); [lia|auto].
      * rewrite sub_put_other by auto. change (sub (is i) y k) with (subs y i k). rewrite I by auto.
        destruct (Nat.ltb_spec i m), (Nat.ltb_spec i (S m)); auto; lia.
    + intros g Hg. rewrite put_outside by auto. auto.
  - exists x'. split; [exact E|]. split; auto. intros i k Hi Hk. rewrite H by auto. destruct (Nat.ltb_spec i nd); [auto|lia].
Qed.

Definition blocks (r : vec) (V : nat -> vec) : Prop := same (subs r) V.
Lemma sums_perm r : sum (n_all np nd loc) (fun g => r g ^ 2) = sum nd (fun i => sum (sz i) (fun k => subs r i k ^ 2)).
Proof.
  assert (L : forall m a, sum m (fun k => r (a + k)%nat ^ 2) = lsum (map (fun g => r g ^ 2) (seq a m))).
  { induction m as [|m IH]; intros a; [reflexivity|]. rewrite seq_S, map_app, lsum_app, <- IH. cbn. ring. }
  transitivity (lsum (map (fun g => r g ^ 2) (seq 0 (n_all np nd loc)))); [apply (L _ O)|].
  rewrite <- (lsum_perm _ _ (Permutation_map (fun g => r g ^ 2) (sets_partition np nd loc))).
  assert (N : forall l, lsum (map (fun g => r g ^ 2) l) = sum (length l) (fun k => r (nth k l O) ^ 2)).
  { induction l as [|a l IH]; [reflexivity|]. change (length (a :: l)) with (1 + length l)%nat. rewrite sum_add. cbn [map lsum fold_right].
    fold (lsum (map (fun g => r g ^ 2) l)). rewrite IH. cbn [sum]. rewrite Rplus_0_l. reflexivity. }
  assert (F : forall m, lsum (map (fun g => r g ^ 2) (flat_map is (seq 0 m))) = sum m (fun i => sum (sz i) (fun k => subs r i k ^ 2))).
  { induction m as [|m IH]; [reflexivity|]. rewrite seq_S, flat_map_app, map_app, lsum_app, IH. cbn [sum flat_map Nat.add].
    rewrite app_nil_r, N, set_length. reflexivity. }
  apply F.
Qed.

Lemma residual_ok s D x r : complete nd s D -> (forall i, (i < nd)%nat -> rows_ok (sz i) (D i)) ->
  exists x' r' norms,
    snes_residual np nd loc s x r = Ok (mkM (assem s) (update s) (with_update np nd loc s x') (ddata s) (mats s) (sols s) (locals s),
       x', r', norms, sqrt (sum (n_all np nd loc) (fun g => r' g ^ 2))) /\
    constrain_all np nd loc s x = Ok x' /\
    same (subs x') (constrained_sols D (subs x)) /\ (forall g, (n_all np nd loc <= g)%nat -> x' g = x g) /\
    same (subs r') (fun i => d_res (D i) (with_update np nd loc s x' i) (subs x' i)) /\
    length norms = nd /\ (forall i, (i < nd)%nat -> nth i norms 0 = sqrt (sum (sz i) (fun k => subs r' i k ^ 2))).
Proof.
  intros C RW. destruct (constrain_ok s D x C RW) as (x' & E & H & O). unfold snes_residual. rewrite E. cbn [bind].
  set (a := with_update np nd loc s x'). set (V := fun i => d_res (D i) (a i) (subs x' i)).
  destruct (loop_inv (fun m (acc : vec * list R * R) =>
      (forall i k, (i < m)%nat -> (k < sz i)%nat -> subs (fst (fst acc)) i k = V i k) /\
      length (snd (fst acc)) = m /\ (forall i, (i < m)%nat -> nth i (snd (fst acc)) 0 = sqrt (sum (sz i) (fun k => V i k ^ 2))) /\
      snd acc = sum m (fun i => sum (sz i) (fun k => V i k ^ 2))) nd
    (fun i (acc : vec * list R * R) =>
          d <- get_system_assembly nd s i ;;
          let v := d_res d (a i) (subs x' i) in
          let l2 := norm2 (sz i) v in
          Ok (put (is i) v (fst (fst acc)), snd (fst acc) ++ [l2], snd acc + l2 ^ 2)) (r, [], 0)) as ([[r' norms] q] & El & I1 & I2 & I3 & I4).
  - repeat split; cbn; intros; lia.
  - intros m [[y l] q] Hm (I1 & I2 & I3 & I4). rewrite (get_ok' s D) by auto. cbn [bind fst snd] in *.
    eexists; split; [reflexivity|]. cbn [fst snd]. repeat split.
    + intros i k Hi Hk. unfold Mph_Model.subs. destruct (Nat.eq_dec i m).
      * subst i. now rewrite sub_put_same by auto.
      * rewrite sub_put_other by (auto; lia). apply I1; auto; lia.
    + rewrite app_length, I2. cbn. lia.
    + intros i Hi. destruct (Nat.eq_dec i m).
      * subst i. rewrite app_nth2 by lia. rewrite I2, Nat.sub_diag. reflexivity.
      * rewrite app_nth1 by lia. apply I3. lia.
    + rewrite I4. cbn [sum]. f_equal. unfold norm2. rewrite pow2_sqrt; [reflexivity|]. apply sum_nonneg. intros; apply pow2_ge_0.
  - cbn [fst snd] in *. rewrite El. cbn [bind fst snd]. exists x', r', norms.
    assert (Q : forall i k, (i < nd)%nat -> (k < sz i)%nat -> subs r' i k = V i k) by auto.
    split; [|split; [reflexivity|]; split; [auto|]; split; [auto|]; split; [auto|]; split; [auto|]].
    + do 2 f_equal. rewrite I4, sums_perm. f_equal. apply sum_ext. intros i Hi. apply sum_ext. intros k Hk. now rewrite Q.
    + intros i Hi. rewrite I3 by auto. f_equal. apply sum_ext. intros k Hk. now rewrite Q.
Qed.

(** a vector whose blocks satisfy the constraints is not changed *)
Lemma sat_fixed D x x' : same (subs x') (constrained_sols D (subs x)) -> (forall i, (i < nd)%nat -> satisfies (sz i) (D i) (subs x i)) ->
  same (subs x') (subs x).
Proof.
  intros H S i k Hi Hk. rewrite H by auto. unfold constrained_sols. destruct (d_row (D i) k) as [[r c]|] eqn:E; auto.
  symmetry. exact (S i Hi k r c Hk E).
Qed.
Lemma sat_after D X : (forall i, (i < nd)%nat -> rows_ok (sz i) (D i)) -> forall i, (i < nd)%nat -> satisfies (sz i) (D i) (constrained_sols D X i).
Proof.
  intros R i Hi k r c Hk E. unfold constrained_sols at 1. rewrite E. f_equal. apply total_ext. intros [j w] Hj. cbn.
  unfold constrained_sols. now rewrite (proj2 (R i Hi k r c E j w Hj)).
Qed.
Lemma same_global x y : same (subs x) (subs y) -> forall g, (g < n_all np nd loc)%nat -> x g = y g.
Proof.
  intros H g Hg. destruct (set_cover np nd loc g Hg) as (i & k & Hi & Hk & <-). exact (H i k Hi Hk).
Qed.

Lemma jacobian_ok s D x : complete nd s D -> (forall i, (i < nd)%nat -> rows_ok (sz i) (D i)) ->
  exists x' m, snes_jacobian np nd loc s x
     = Ok (mkM (assem s) (update s) (with_update np nd loc s x') (ddata s) m (sols s) (locals s), x') /\
    same (subs x') (constrained_sols D (subs x)) /\
    (forall i, (i < nd)%nat -> m i = d_jac (D i) (with_update np nd loc s x' i) (subs x' i)).
Proof.
  intros C RW. destruct (constrain_ok s D x C RW) as (x' & E & H & O). unfold snes_jacobian. rewrite E. cbn [bind].
  set (a := with_update np nd loc s x').
  destruct (loop_inv (fun k m => forall i, (i < k)%nat -> m i = d_jac (D i) (a i) (subs x' i)) nd
     (fun i m => d <- get_system_assembly nd s i ;; Ok (upd m i (d_jac d (a i) (subs x' i)))) (mats s)) as (m & El & I).
  - intros i Hi. lia.
  - intros k m Hk I. rewrite (get_ok' s D) by auto. cbn [bind]. eexists; split; [reflexivity|].
    intros i Hi. destruct (Nat.eq_dec i k); [subst; apply upd_same|]. rewrite upd_other by auto. apply I. lia.
  - exists x', m. rewrite El. cbn [bind]. auto.
Qed.

(** ** the product with the nested matrix, for directions that respect the constraints *)
Section Product.
Variables (D : nat -> disc) (u : updater).
Hypothesis RW : forall i, (i < nd)%nat -> rows_ok (sz i) (D i).
Hypothesis LD : forall i, (i < nd)%nat -> local_disc (sz i) (D i).
Hypothesis LU : local_updater np nd loc u.
Variables (x dx0 : vec) (K : nat -> matrix).
Hypothesis SH : forall i, (i < nd)%nat -> satisfies_hom (sz i) (D i) (subs dx0 i).
(** contribution of block (i, j) *)
Definition blk (i j k : nat) : R :=
  if (i =? j)%nat then sum (sz i) (fun l => K i k l * subs dx0 i l)
  else d_lin (D i) (fst (at_perturbed u (subs x) (only j (subs dx0 j)) i)) (snd (at_perturbed u (subs x) (only j (subs dx0 j)) i))
         (subs x i) zero k.
Definition good (s : mst) : Prop := complete nd s D /\ update s = Some u /\ mats s = K.
Lemma hom_same dx j k : same (subs dx) (subs dx0) -> (j < nd)%nat -> (k < sz j)%nat ->
  enf_hom (d_row (D j)) (sub (is j) dx) k = subs dx0 j k.
Proof.
  intros S Hj Hk. rewrite (hom_ext (sz j) (D j) _ (subs dx0 j)); auto.
  - apply (hom_id (sz j)); auto.
  - intros l Hl. exact (S j l Hj Hl).
Qed.
Lemma block_ok i j s dx y : good s -> same (subs dx) (subs dx0) -> (i < nd)%nat -> (j < nd)%nat ->
  exists s' dx' y', block_step np nd loc x i j (s, dx, y) = Ok (s', dx', y') /\ good s' /\ same (subs dx') (subs dx0) /\
    forall k, (k < sz i)%nat -> y' k = y k + blk i j k.
Proof.
  intros (C & U & MM) S Hi Hj. unfold block_step, blk. destruct (Nat.eqb_spec i j) as [<-|Ne].
  - eexists _, _, _. split; [reflexivity|]. split; [repeat split; auto|]. split; [auto|]. intros k Hk. cbn.
    f_equal. unfold mat_vec. rewrite MM. apply sum_ext. intros l Hl. f_equal. exact (S i l Hi Hl).
  - unfold mat_mult. rewrite !(get_ok' s D) by auto. cbn [bind]. rewrite U. cbn [bind fst snd].
    eexists _, _, _. split; [reflexivity|]. split; [repeat split; auto|]. split.
    + intros i' k Hi' Hk. unfold Mph_Model.subs. destruct (Nat.eq_dec i' j).
      * subst i'. rewrite sub_put_same by auto. now apply hom_same.
      * rewrite sub_put_other by auto. exact (S i' k Hi' Hk).
    + intros k Hk. cbn. f_equal.
      assert (Q : same (fun k0 => if (k0 =? j)%nat then enf_hom (d_row (D j)) (sub (is j) dx) else zero) (only j (subs dx0 j))).
      { intros i' l Hi' Hl. unfold only. destruct (Nat.eqb_spec i' j); auto. subst i'. now apply hom_same. }
      assert (P := proj2 LU (subs x) (subs x) _ _ i (same_refl _) Q).
      change (Mph_Model.subs np nd loc) with subs. rewrite P. apply (LD i Hi); auto. intros l Hl.
      destruct (Nat.eqb_spec i j); [contradiction|auto].
Qed.
Lemma row_ok i s dx : good s -> same (subs dx) (subs dx0) -> (i < nd)%nat ->
  exists s' dx' y', loop nd (block_step np nd loc x i) (s, dx, zero) = Ok (s', dx', y') /\ good s' /\ same (subs dx') (subs dx0) /\
    forall k, (k < sz i)%nat -> y' k = sum nd (fun j => blk i j k).
Proof.
  intros G S Hi.
  destruct (loop_inv (fun m (a : mst * vec * vec) => good (fst (fst a)) /\ same (subs (snd (fst a))) (subs dx0) /\
      forall k, (k < sz i)%nat -> snd a k = sum m (fun j => blk i j k)) nd (block_step np nd loc x i) (s, dx, zero)) as ([[s' dx'] y'] & E & G' & S' & Y).
  - cbn. auto.
  - intros m [[s1 d1] y1] Hm (G1 & S1 & Y1). cbn [fst snd] in *.
    destruct (block_ok i m s1 d1 y1 G1 S1 Hi Hm) as (s2 & d2 & y2 & E & G2 & S2 & Y2).
    exists (s2, d2, y2). split; auto. cbn [fst snd]. split; auto. split; auto. intros k Hk. rewrite Y2, Y1 by auto. reflexivity.
  - exists s', dx', y'. auto.
Qed.
Lemma nest_ok s y : good s -> exists s' dx' y', nest_mult np nd loc s x dx0 y = Ok (s', dx', y') /\ good s' /\ same (subs dx') (subs dx0) /\
  same (subs y') (fun i k => sum nd (fun j => blk i j k)).
Proof.
  intros G. unfold nest_mult.
  match goal with |- context [loop nd ?b _] => set (body := b) end.
  destruct (loop_inv (fun m (a : mst * vec * vec) => good (fst (fst a)) /\ same (subs (snd (fst a))) (subs dx0) /\
      forall i k, (i < m)%nat -> (k < sz i)%nat -> subs (snd a) i k = sum nd (fun j => blk i j k)) nd body (s, dx0, y)) as ([[s' dx'] y'] & E & G' & S' & Y).
  - cbn. split; [auto|]. split; [apply same_refl|]. intros; lia.
  - intros m [[s1 d1] y1] Hm (G1 & S1 & Y1). cbn [fst snd] in *.
    destruct (row_ok m s1 d1 G1 S1 Hm) as (s2 & d2 & y2 & E & G2 & S2 & Y2).
    exists (s2, d2, put (is m) y2 y1). unfold body. rewrite E. cbn [bind fst snd]. split; [auto|]. split; [auto|]. split; [auto|].
    intros i k Hi Hk. unfold Mph_Model.subs. destruct (Nat.eq_dec i m).
    + subst i. rewrite sub_put_same by auto. auto.
    + rewrite sub_put_other by (auto; lia). apply Y1; auto; lia.
  - exists s', dx', y'. auto.
Qed.
End Product.

(** ** the derivative of the coupled equations *)
Section Der.
Variables (D : nat -> disc) (u : updater) (M : nat) (X dX : nat -> vec).
Hypothesis DD : forall i, (i < nd)%nat -> disc_derivative M (sz i) (D i) (at_solution u X i) (X i).
Hypothesis UD : update_derivative M nd u X dX.
Lemma path_0 : (fun j k => X j k + 0 * dX j k) = X.
Proof. apply functional_extensionality. intros j. apply functional_extensionality. intros k. ring. Qed.
Lemma coupled_derive i k : (i < nd)%nat -> (k < sz i)%nat ->
  is_derive (fun t => coupled D u (fun j k => X j k + t * dX j k) i k) 0
    (sum (sz i) (fun l => d_jac (D i) (at_solution u X i) (X i) k l * dX i l)
     + sum nd (fun j => d_lin (D i) (at_solution u X i) (snd (at_perturbed u X (only j (dX j)) i)) (X i) zero k)).
Proof.
  intros Hi Hk. destruct (DD i Hi) as (B & H & L). unfold coupled.
  assert (E : sum nd (fun j => d_lin (D i) (at_solution u X i) (snd (at_perturbed u X (only j (dX j)) i)) (X i) zero k)
     = sum M (fun m => B k m * sum nd (fun j => snd (at_perturbed u X (only j (dX j)) i) m))).
  { rewrite (sum_ext nd _ (fun j => sum M (fun m => B k m * snd (at_perturbed u X (only j (dX j)) i) m))).
    - rewrite sum_swap. apply sum_ext. intros m Hm. now rewrite sum_scal_l.
    - intros j Hj. rewrite L by auto. rewrite sum_0; [ring|]. intros. unfold zero. ring. }
  rewrite E. apply (H (fun t => at_solution u (fun j k => X j k + t * dX j k) i)
    (fun m => sum nd (fun j => snd (at_perturbed u X (only j (dX j)) i) m)) (fun t l => X i l + t * dX i l) (dX i)); auto.
  - now rewrite path_0.
  - apply functional_extensionality. intros l. ring.
  - intros m Hm. apply (proj2 UD); auto.
  - intros l Hl. auto_derive; auto. ring.
Qed.
End Der.
End Call.
