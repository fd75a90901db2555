(** Proofs about the transformation of unknowns. *)
From Coq Require Import Reals Lra.
From Coquelicot Require Import Coquelicot.
From Coq Require Import List Arith Bool Lia.
From Verif Require Import Base BaseLemmas RBool Geom_Model Geom_Spec Geom_Proofs.
Import ListNotations.
Open Scope R_scope.

Definition blk (c d : nat) : bool := ((c <? 3) && (d <? 3) || (3 <=? c) && (3 <=? d))%nat.
Definition sub3 (c : nat) : nat := if (c <? 3)%nat then c else (c - 3)%nat.
Definition lift (t : nat -> nat -> R) (c d : nat) : R := if blk c d then t (sub3 c) (sub3 d) else 0.

Lemma flat_eqb n c a j i : (a < n)%nat -> (i < n)%nat -> (c * n + a =? j * n + i)%nat = ((c =? j) && (a =? i))%nat.
Proof.
  intros Ha Hi. destruct (Nat.eqb_spec (c * n + a) (j * n + i)) as [E|E].
  - destruct (flat_inj c a j i n Ha Hi E) as [-> ->]. now rewrite !Nat.eqb_refl.
  - destruct (Nat.eqb_spec c j), (Nat.eqb_spec a i); subst; try reflexivity. now contradict E.
Qed.
Section BigT.
Variable (n : nat) (t : nat -> nat -> R).
Definition done (i j k c a d b : nat) : bool :=
  ((a =? b) && blk c d && ((a <? i) || (a =? i) && ((sub3 c <? j) || (sub3 c =? j) && (sub3 d <? k))))%nat.
Definition binv (i j k : nat) (m : mat R) : Prop := rows m = (6 * n)%nat /\ cols m = (6 * n)%nat /\
  forall c a d b, (c < 6)%nat -> (a < n)%nat -> (d < 6)%nat -> (b < n)%nat ->
  ent m (c * n + a) (d * n + b) = if done i j k c a d b then t (sub3 c) (sub3 d) else 0.
Lemma done_step i j k c a d b : (i < n)%nat -> (j < 3)%nat -> (k < 3)%nat -> (c < 6)%nat -> (a < n)%nat -> (d < 6)%nat -> (b < n)%nat ->
  done i j (S k) c a d b = (done i j k c a d b || ((a =? i) && (b =? i) && ((c =? j) && (d =? k) || (c =? j + 3) && (d =? k + 3))))%nat.
Proof.
  intros. unfold done, blk, sub3.
  destruct (Nat.eqb_spec a b), (Nat.eqb_spec a i), (Nat.eqb_spec b i), (Nat.ltb_spec a i); try lia; cbn [andb orb]; rewrite ?andb_false_r, ?orb_false_r; try reflexivity.
  destruct (Nat.ltb_spec c 3), (Nat.ltb_spec d 3), (Nat.leb_spec 3 c), (Nat.leb_spec 3 d); try lia; cbn [andb orb];
  repeat match goal with |- context [(?x =? ?y)%nat] => destruct (Nat.eqb_spec x y) | |- context [(?x <? ?y)%nat] => destruct (Nat.ltb_spec x y) end; try lia; reflexivity.
Qed.
Lemma bstep i j k m : (i < n)%nat -> (j < 3)%nat -> (k < 3)%nat -> binv i j k m ->
  exists m', (m <- mset m (j * n + i) (k * n + i) (t j k) ;; mset m ((j + 3) * n + i) ((k + 3) * n + i) (t j k)) = Ok m' /\ binv i j (S k) m'.
Proof.
  intros Hi Hj Hk (R1 & C1 & E).
  assert (B1 : (j * n + i < 6 * n)%nat) by nia. assert (B2 : (k * n + i < 6 * n)%nat) by nia.
  assert (B3 : ((j + 3) * n + i < 6 * n)%nat) by nia. assert (B4 : ((k + 3) * n + i < 6 * n)%nat) by nia.
  rewrite mset_ok by (rewrite ?R1, ?C1; auto). cbn [bind]. rewrite mset_ok by (cbn [rows cols]; rewrite ?R1, ?C1; auto).
  eexists. split; [reflexivity|]. split; [exact R1|]. split; [exact C1|].
  intros c a d b Hc Ha Hd Hb. cbn [ent]. unfold upd2. rewrite !flat_eqb by auto. rewrite E by auto. rewrite done_step by auto.
  destruct (Nat.eqb_spec c (j + 3)) as [E1|E1], (Nat.eqb_spec d (k + 3)) as [E2|E2], (Nat.eqb_spec a i) as [E3|E3], (Nat.eqb_spec b i) as [E4|E4];
    destruct (Nat.eqb_spec c j) as [E5|E5], (Nat.eqb_spec d k) as [E6|E6]; try lia; cbn [andb orb]; rewrite ?orb_false_r, ?orb_true_r; try reflexivity.
  - unfold sub3. subst c d. destruct (Nat.ltb_spec (j + 3) 3), (Nat.ltb_spec (k + 3) 3); try lia. f_equal; lia.
  - unfold sub3. subst c d. destruct (Nat.ltb_spec j 3), (Nat.ltb_spec k 3); try lia. reflexivity.
Qed.
Lemma sub3_lt c : (c < 6)%nat -> (sub3 c < 3)%nat.
Proof. intros. unfold sub3. destruct (Nat.ltb_spec c 3); lia. Qed.
Lemma binv_k i j m : binv i j 3 m -> binv i (S j) 0 m.
Proof.
  intros (R1 & C1 & E). split; [exact R1|]. split; [exact C1|]. intros c a d b Hc Ha Hd Hb. rewrite E by auto.
  replace (done i (S j) 0 c a d b) with (done i j 3 c a d b); [reflexivity|]. unfold done. f_equal. f_equal. f_equal.
  assert (H1 := sub3_lt d Hd). destruct (Nat.ltb_spec (sub3 d) 0); [lia|]. rewrite (andb_false_r (sub3 c =? S j)%nat), orb_false_r.
  destruct (Nat.ltb_spec (sub3 c) j), (Nat.eqb_spec (sub3 c) j), (Nat.ltb_spec (sub3 c) (S j)), (Nat.ltb_spec (sub3 d) 3); try lia; reflexivity.
Qed.
Lemma binv_j i m : binv i 3 0 m -> binv (S i) 0 0 m.
Proof.
  intros (R1 & C1 & E). split; [exact R1|]. split; [exact C1|]. intros c a d b Hc Ha Hd Hb. rewrite E by auto.
  replace (done (S i) 0 0 c a d b) with (done i 3 0 c a d b); [reflexivity|]. unfold done. f_equal.
  assert (H1 := sub3_lt c Hc). destruct (Nat.ltb_spec (sub3 d) 0); [lia|]. destruct (Nat.ltb_spec (sub3 c) 0); [lia|]. rewrite !andb_false_r, orb_false_r. rewrite ?andb_false_r, orb_false_r.
  destruct (Nat.ltb_spec (sub3 c) 3); [|lia]. cbn [orb andb]. rewrite andb_true_r.
  destruct (Nat.ltb_spec a i), (Nat.eqb_spec a i), (Nat.ltb_spec a (S i)); try lia; reflexivity.
Qed.
Lemma big_T_spec : exists m, big_T n t = Ok m /\ rows m = (6 * n)%nat /\ cols m = (6 * n)%nat /\
  forall c a d b, (c < 6)%nat -> (a < n)%nat -> (d < 6)%nat -> (b < n)%nat ->
  ent m (c * n + a) (d * n + b) = lift t c d * kron a b.
Proof.
  unfold big_T.
  destruct (loop_inv (fun i m => binv i 0 0 m) n (fun i m => loop 3 (fun j m => loop 3 (fun k m =>
    m <- mset m (j * n + i) (k * n + i) (t j k) ;;
    mset m ((j + 3) * n + i) ((k + 3) * n + i) (t j k)) m) m) (mfill (6 * n) (6 * n) 0)) as (m & E & I).
  - split; [reflexivity|]. split; [reflexivity|]. intros. cbn [ent mfill]. unfold done.
    destruct (Nat.ltb_spec a 0); [lia|]. destruct (Nat.ltb_spec (sub3 c) 0); [lia|]. destruct (Nat.ltb_spec (sub3 d) 0); [lia|].
    cbn [orb]. now rewrite !andb_false_r.
  - intros i m Hi I.
    destruct (loop_inv (fun j m => binv i j 0 m) 3 (fun j m => loop 3 (fun k m =>
      m <- mset m (j * n + i) (k * n + i) (t j k) ;;
      mset m ((j + 3) * n + i) ((k + 3) * n + i) (t j k)) m) m) as (m1 & E1 & I1); [exact I| |].
    + intros j m1 Hj I1.
      destruct (loop_inv (fun k m => binv i j k m) 3 (fun k m =>
        m <- mset m (j * n + i) (k * n + i) (t j k) ;;
        mset m ((j + 3) * n + i) ((k + 3) * n + i) (t j k)) m1) as (m2 & E2 & I2); [exact I1| |].
      * intros k m2 Hk I2. now apply bstep.
      * exists m2. split; [exact E2|]. now apply binv_k.
    + exists m1. split; [exact E1|]. now apply binv_j.
  - exists m. split; [exact E|]. destruct I as (R1 & C1 & V). split; [exact R1|]. split; [exact C1|].
    intros c a d b Hc Ha Hd Hb. rewrite V by auto. unfold done, lift, kron. destruct (Nat.ltb_spec a n); [|lia]. cbn [orb]. rewrite andb_true_r.
    destruct (Nat.eqb a b), (blk c d); cbn [andb]; ring.
Qed.
End BigT.

Lemma sum_flat n f : sum (6 * n) f = sum 6 (fun c => sum n (fun a => f (c * n + a)%nat)).
Proof. apply sum_mul. Qed.
Lemma sum_kron n a (f : nat -> R) : (a < n)%nat -> sum n (fun b => kron a b * f b) = f a.
Proof.
  intros H. rewrite (sum_single n a); [unfold kron; rewrite Nat.eqb_refl; ring|exact H|].
  intros b _ Hb. unfold kron. destruct (Nat.eqb_spec a b); [congruence|ring].
Qed.
Lemma div6 n : (6 * n / 6 = n)%nat.
Proof. rewrite Nat.mul_comm. now apply Nat.div_mul. Qed.
Lemma split6 n k : (k < 6 * n)%nat -> exists c a, (c < 6)%nat /\ (a < n)%nat /\ k = (c * n + a)%nat.
Proof.
  intros H. assert (n <> 0)%nat by lia. exists (k / n)%nat, (k mod n)%nat. split; [|split].
  - apply Nat.div_lt_upper_bound; lia.
  - now apply Nat.mod_upper_bound.
  - rewrite Nat.mul_comm. now apply Nat.div_mod.
Qed.

(** what the two transformations compute *)
Lemma to_global_ok dim e n v : (dim < 3)%nat -> len v = (6 * n)%nat -> exists w, vector_to_global dim (Some e) v = Ok w /\ len w = (6 * n)%nat /\
  forall c a, (c < 6)%nat -> (a < n)%nat -> at_ n w c a = sum 6 (fun d => lift (T e) c d * at_ n v d a).
Proof.
  intros Hd Hv. unfold vector_to_global, T_matrix. unfold assert_. destruct (Nat.ltb_spec dim 3); [|lia]. cbn [bind]. rewrite Hv, div6.
  destruct (big_T_spec n (T e)) as (m & E & R1 & C1 & V). rewrite E. cbn [bind]. unfold mul_mv. rewrite C1, Hv, Nat.eqb_refl. unfold assert_.
  eexists. split; [reflexivity|]. split; [exact R1|]. intros c a Hc Ha. unfold at_. cbn [cell]. rewrite sum_flat. apply sum_ext. intros d Hd'.
  transitivity (sum n (fun b => kron a b * (lift (T e) c d * cell v (d * n + b)%nat))).
  - apply sum_ext. intros b Hb. rewrite V by auto. ring.
  - now rewrite (sum_kron n a (fun b => lift (T e) c d * cell v (d * n + b)%nat)).
Qed.
Lemma to_local_ok dim e n v : (dim < 3)%nat -> len v = (6 * n)%nat -> exists w, vector_to_local dim (Some e) v = Ok w /\ len w = (6 * n)%nat /\
  forall c a, (c < 6)%nat -> (a < n)%nat -> at_ n w c a = sum 6 (fun d => lift (T e) d c * at_ n v d a).
Proof.
  intros Hd Hv. unfold vector_to_local, T_matrix. unfold assert_. destruct (Nat.ltb_spec dim 3); [|lia]. cbn [bind]. rewrite Hv, div6.
  destruct (big_T_spec n (T e)) as (m & E & R1 & C1 & V). rewrite E. cbn [bind]. unfold mul_mv, transpose. cbn [cols rows ent]. rewrite R1, Hv, Nat.eqb_refl. unfold assert_.
  eexists. split; [reflexivity|]. split; [exact C1|]. intros c a Hc Ha. unfold at_. cbn [cell]. rewrite sum_flat. apply sum_ext. intros d Hd'.
  transitivity (sum n (fun b => kron a b * (lift (T e) d c * cell v (d * n + b)%nat))).
  - apply sum_ext. intros b Hb. rewrite V by auto. unfold kron. rewrite (Nat.eqb_sym b a). ring.
  - now rewrite (sum_kron n a (fun b => lift (T e) d c * cell v (d * n + b)%nat)).
Qed.
(** by nodes *)
Lemma lift_row t c s i : (s = 0 \/ s = 3)%nat -> (i < 3)%nat -> c = (s + i)%nat -> forall g : nat -> R,
  sum 6 (fun d => lift t c d * g d) = sum 3 (fun k => t i k * g (s + k)%nat).
Proof.
  intros Hs Hi -> g. destruct Hs as [-> | ->]; destruct i as [|[|[|i]]]; try lia; unfold lift; cbn; ring.
Qed.
Lemma lift_col t c s i : (s = 0 \/ s = 3)%nat -> (i < 3)%nat -> c = (s + i)%nat -> forall g : nat -> R,
  sum 6 (fun d => lift t d c * g d) = sum 3 (fun k => t k i * g (s + k)%nat).
Proof.
  intros Hs Hi -> g. destruct Hs as [-> | ->]; destruct i as [|[|[|i]]]; try lia; unfold lift; cbn; ring.
Qed.
Lemma six c : (c < 6)%nat -> exists s i, (s = 0 \/ s = 3)%nat /\ (i < 3)%nat /\ c = (s + i)%nat.
Proof. intros H. destruct (Nat.lt_ge_cases c 3); [exists 0%nat, c; lia|exists 3%nat, (c - 3)%nat; lia]. Qed.
Lemma work_nodes n f u : len f = (6 * n)%nat -> work f u =
  sum n (fun a => inner (node_vector n f 0 a) (node_vector n u 0 a) + inner (node_vector n f 3 a) (node_vector n u 3 a)).
Proof.
  intros H. unfold work. rewrite H, sum_flat, sum_swap. apply sum_ext. intros a _. unfold inner, node_vector, at_. cbn [sum Nat.add]. ring.
Qed.

(** the matrix *)
Lemma matrix_ok dim e n m : (dim < 3)%nat -> rows m = (6 * n)%nat -> cols m = (6 * n)%nat ->
  exists g b, big_T n (T e) = Ok b /\ matrix_to_global dim (Some e) m = Ok g /\ rows g = (6 * n)%nat /\ cols g = (6 * n)%nat /\
  forall i j, ent g i j = sum (6 * n) (fun k => sum (6 * n) (fun l => ent b i l * ent m l k) * ent b j k).
Proof.
  intros Hd Hr Hc. unfold matrix_to_global, T_matrix. unfold assert_ at 1 2. destruct (Nat.ltb_spec dim 3); [|lia]. rewrite Hr, Hc, Nat.eqb_refl. cbn [bind]. rewrite div6.
  destruct (big_T_spec n (T e)) as (b & E & R1 & C1 & V). rewrite E. cbn [bind]. unfold mul_mm, transpose. rewrite C1, Hr, Nat.eqb_refl.
  unfold assert_ at 1. cbn [bind cols rows ent]. rewrite Hc, ?C1, Nat.eqb_refl. unfold assert_.
  exists (mkMat (rows b) (rows b) (fun i j => sum (6 * n) (fun k => sum (6 * n) (fun l => ent b i l * ent m l k) * ent b j k))), b.
  split; [reflexivity|]. split; [reflexivity|]. repeat split; cbn [rows cols]; auto.
Qed.
Lemma matrix_apply dim e n m g u lu fu : (dim < 3)%nat -> rows m = (6 * n)%nat -> cols m = (6 * n)%nat -> len u = (6 * n)%nat ->
  matrix_to_global dim (Some e) m = Ok g -> vector_to_local dim (Some e) u = Ok lu -> vector_to_global dim (Some e) (apply m lu) = Ok fu ->
  forall k, (k < 6 * n)%nat -> cell (apply g u) k = cell fu k.
Proof.
  intros Hd Hr Hc Hu G L F i Hi. destruct (matrix_ok dim e n m Hd Hr Hc) as (g' & b & E & G' & R1 & C1 & V). rewrite G in G'. injection G' as <-.
  revert L F. unfold vector_to_local, vector_to_global, T_matrix, assert_. destruct (Nat.ltb_spec dim 3); [|lia]. cbn [bind].
  replace (len (apply m lu)) with (6 * n)%nat by (symmetry; exact Hr). rewrite Hu, !div6, E. cbn [bind].
  destruct (big_T_spec n (T e)) as (b' & E' & RB & CB & _). rewrite E in E'. injection E' as <-.
  unfold mul_mv, transpose, assert_. cbn [cols rows ent len apply]. rewrite RB, CB, Hu, Hr, Nat.eqb_refl. intros L F. injection L as <-. injection F as <-.
  unfold apply. cbn [cell rows cols]. rewrite C1, Hc.
  transitivity (sum (6 * n) (fun j => sum (6 * n) (fun k => sum (6 * n) (fun l => ent b i l * (ent m l k * (ent b j k * cell u j)))))).
  { apply sum_ext. intros j _. rewrite V, <- sum_scal_r. apply sum_ext. intros k _. rewrite <- !sum_scal_r. apply sum_ext. intros; ring. }
  transitivity (sum (6 * n) (fun l => sum (6 * n) (fun k => sum (6 * n) (fun j => ent b i l * (ent m l k * (ent b j k * cell u j)))))).
  { transitivity (sum (6 * n) (fun j => sum (6 * n) (fun l => sum (6 * n) (fun k => ent b i l * (ent m l k * (ent b j k * cell u j)))))).
    - apply sum_ext. intros j _. apply sum_swap.
    - rewrite sum_swap. apply sum_ext. intros l _. apply sum_swap. }
  apply sum_ext. intros l _. rewrite <- sum_scal_l. apply sum_ext. intros k _. rewrite <- !sum_scal_l. apply sum_ext. intros; ring.
Qed.
