From Coq Require Import Reals.
From Coquelicot Require Import Coquelicot.
From Coq Require Import List Arith Bool Permutation Lia Lra.
From Verif Require Import Base BaseLemmas RBool Sens_Model Sens_Spec Sens_Proofs Sens_Proofs2 Lna_Model Lna_Spec Lna_Proofs.
Import ListNotations.
Open Scope R_scope.

Lemma total_nth (f : nat -> R) l : total f l = sum (length l) (fun i => f (nth i l O)).
Proof.
  induction l as [|a l IH] using rev_ind; [reflexivity|]. rewrite total_app, app_length, Nat.add_1_r. cbn [sum].
  rewrite IH. f_equal.
  - apply sum_ext. intros i Hi. now rewrite app_nth1.
  - rewrite app_nth2, Nat.sub_diag by lia. unfold total; cbn. ring.
Qed.
Lemma split_sum rows voids m (f : nat -> R) : Permutation (rows ++ voids) (seq 0 m) ->
  sum m f = sum (length rows) (fun i => f (nth i rows O)) + sum (length voids) (fun a => f (nth a voids O)).
Proof.
  intros P. rewrite <- !total_nth, <- total_app, (total_perm f _ _ P), total_nth, seq_length.
  apply sum_ext. intros i Hi. now rewrite seq_nth.
Qed.
Lemma perm_nodup (rows voids : list nat) m : Permutation (rows ++ voids) (seq 0 m) -> NoDup (rows ++ voids).
Proof. intros P. apply (Permutation_NoDup (Permutation_sym P)), seq_NoDup. Qed.
Lemma nodup_l (rows voids : list nat) : NoDup (rows ++ voids) -> NoDup rows.
Proof. induction rows as [|a l IH]; cbn; intros H; [constructor|]. inversion_clear H. constructor; auto. intros I. apply H0, in_or_app. now left. Qed.
Lemma nodup_sep (rows voids : list nat) k : NoDup (rows ++ voids) -> In k voids -> ~ In k rows.
Proof.
  induction rows as [|a l IH]; cbn; intros H I; [auto|]. inversion_clear H. intros [E|E].
  - subst. apply H0, in_or_app. now right.
  - now apply IH.
Qed.

Lemma inv_left m (M W : matrix) (g d : nat -> R) : inverse_of m M W ->
  sum m (fun a => sum m (fun b => g a * W a b * sum m (fun c => M b c * d c))) = sum m (fun a => g a * d a).
Proof.
  intros I. apply sum_ext. intros a Ha.
  transitivity (sum m (fun b => sum m (fun c => g a * d c * (W a b * M b c)))).
  { apply sum_ext. intros b _. rewrite <- sum_scal_l. apply sum_ext. intros; ring. }
  rewrite sum_swap. rewrite (sum_single m a); auto.
  - rewrite sum_scal_l, (proj2 (I a a Ha Ha)). unfold delta. rewrite Nat.eqb_refl. ring.
  - intros c Hc E. rewrite sum_scal_l, (proj2 (I a c Ha Hc)). unfold delta. destruct (Nat.eqb_spec a c); [congruence|ring].
Qed.
Lemma inv_right m (N W : matrix) (d q : nat -> R) : inverse_of m N W ->
  sum m (fun a => sum m (fun b => sum m (fun c => N c a * d c) * W a b * q b)) = sum m (fun b => d b * q b).
Proof.
  intros I. rewrite sum_swap. apply sum_ext. intros b Hb.
  transitivity (sum m (fun a => sum m (fun c => d c * q b * (N c a * W a b)))).
  { apply sum_ext. intros a _. rewrite Rmult_assoc, <- sum_scal_r. apply sum_ext. intros; ring. }
  rewrite sum_swap. rewrite (sum_single m b); auto.
  - rewrite sum_scal_l, (proj1 (I b b Hb Hb)). unfold delta. rewrite Nat.eqb_refl. ring.
  - intros c Hc E. rewrite sum_scal_l, (proj1 (I c b Hc Hb)). unfold delta. destruct (Nat.eqb_spec c b); [congruence|ring].
Qed.

(** ** condensed elements *)
Section Cond.
Variables (e : lcell) (rows voids : list nat).
Notation m := (length (lc_dofs e)).
(** a vector without void part *)
Lemma cond_plain M v : condenses e rows voids M -> (forall b, (b < length voids)%nat -> v (nth b voids O) = 0) ->
  exists juu ru, lc_cond e M v = (rows, juu, ru) /\ forall k, place rows ru k = restrict rows v k.
Proof.
  intros (P & W & I & H) Z. destruct (H v) as (juu & ru & E & Hr & _). exists juu, ru. split; auto. intros k.
  pose proof (nodup_l _ _ (perm_nodup _ _ _ P)) as N. unfold restrict. destruct (existsb (Nat.eqb k) rows) eqn:Q.
  - apply existsb_exists in Q. destruct Q as (k' & Ik & Ek). apply Nat.eqb_eq in Ek. subst k'.
    destruct (In_nth _ _ O Ik) as (i & Hi & <-). rewrite place_in, Hr by auto.
    rewrite (sum_0 (length voids)); [ring|]. intros a _. apply sum_0. intros b Hb. rewrite Z by auto. ring.
  - apply place_out; auto. intros Ik. rewrite <- not_true_iff_false in Q. apply Q. apply existsb_exists. exists k. split; auto. apply Nat.eqb_refl.
Qed.
(** the condensed matrix acts like the full one when the void follows *)
Lemma cond_matrix M v dx : condenses e rows voids M ->
  (forall b, (b < length voids)%nat -> sum m (fun l => M (nth b voids O) l * dx l) = 0) ->
  exists juu ru, lc_cond e M v = (rows, juu, ru) /\
    forall k, In k rows -> sum m (fun l => place_mat rows juu k l * restrict rows dx l) = sum m (fun l => M k l * dx l).
Proof.
  intros (P & W & I & H) Z. destruct (H v) as (juu & ru & E & _ & Hj). exists juu, ru. split; auto. intros k Ik.
  pose proof (perm_nodup _ _ _ P) as NN. pose proof (nodup_l _ _ NN) as N. destruct (In_nth _ _ O Ik) as (i & Hi & <-).
  rewrite !(split_sum rows voids m) by auto.
  rewrite (sum_0 (length voids) (fun a => place_mat _ _ _ _ * _)).
  2:{ intros a Ha. unfold restrict. destruct (existsb _ rows) eqn:Q; [|ring]. exfalso. apply existsb_exists in Q.
      destruct Q as (k' & Ik' & Ek). apply Nat.eqb_eq in Ek. subst k'. apply (nodup_sep rows voids (nth a voids O)); auto. now apply nth_In. }
  rewrite Rplus_0_r.
  transitivity (sum (length rows) (fun j => M (nth i rows O) (nth j rows O) * dx (nth j rows O))
     - sum (length rows) (fun j => sum (length voids) (fun a => sum (length voids) (fun b =>
         M (nth i rows O) (nth a voids O) * W a b * (M (nth b voids O) (nth j rows O) * dx (nth j rows O)))))).
  { rewrite <- sum_minus. apply sum_ext. intros j Hj'. rewrite place_mat_in by auto. rewrite Hj by auto.
    unfold restrict. replace (existsb (Nat.eqb (nth j rows O)) rows) with true.
    2:{ symmetry. apply existsb_exists. exists (nth j rows O). split; [now apply nth_In|apply Nat.eqb_refl]. }
    rewrite Rmult_minus_distr_r. f_equal. rewrite <- sum_scal_r. apply sum_ext. intros a _. rewrite <- sum_scal_r. apply sum_ext. intros; ring. }
  rewrite sum_swap.
  rewrite (sum_ext (length voids) _ (fun a => sum (length voids) (fun b => M (nth i rows O) (nth a voids O) * W a b *
     - sum (length voids) (fun c => M (nth b voids O) (nth c voids O) * dx (nth c voids O))))).
  2:{ intros a Ha. rewrite sum_swap. apply sum_ext. intros b Hb. rewrite sum_scal_l. f_equal.
      pose proof (Z b Hb) as Zb. rewrite (split_sum rows voids m) in Zb by auto. lra. }
  rewrite (sum_ext (length voids) (fun a => sum (length voids) _)
     (fun a => - sum (length voids) (fun b => M (nth i rows O) (nth a voids O) * W a b *
     sum (length voids) (fun c => void_block voids M b c * dx (nth c voids O))))).
  2:{ intros a _. rewrite <- sum_opp. apply sum_ext. intros b _. unfold void_block. ring. }
  rewrite sum_opp, (inv_left _ _ _ (fun a => M (nth i rows O) (nth a voids O)) (fun c => dx (nth c voids O)) I). lra.
Qed.
(** condensation of a gradient with the transposed matrix *)
Lemma cond_gradient M v dx : condenses e rows voids (transp M) ->
  (forall b, (b < length voids)%nat -> sum m (fun l => M (nth b voids O) l * dx l) = 0) ->
  exists juu ru, lc_cond e (transp M) v = (rows, juu, ru) /\
    sum m (fun k => place rows ru k * dx k) = sum m (fun k => v k * dx k).
Proof.
  intros (P & W & I & H) Z. destruct (H v) as (juu & ru & E & Hr & _). exists juu, ru. split; auto.
  pose proof (perm_nodup _ _ _ P) as NN. pose proof (nodup_l _ _ NN) as N.
  rewrite !(split_sum rows voids m) by auto.
  rewrite (sum_0 (length voids) (fun a => place _ _ _ * _)).
  2:{ intros a Ha. rewrite place_out; auto; [ring|]. apply (nodup_sep rows voids); auto. now apply nth_In. }
  rewrite Rplus_0_r.
  transitivity (sum (length rows) (fun i => v (nth i rows O) * dx (nth i rows O))
    - sum (length rows) (fun i => sum (length voids) (fun a => sum (length voids) (fun b =>
        M (nth a voids O) (nth i rows O) * dx (nth i rows O) * W a b * v (nth b voids O))))).
  { rewrite <- sum_minus. apply sum_ext. intros i Hi. rewrite place_in, Hr by auto. rewrite Rmult_minus_distr_r. f_equal.
    rewrite <- sum_scal_r. apply sum_ext. intros a _. rewrite <- sum_scal_r. apply sum_ext. intros. unfold transp. ring. }
  rewrite sum_swap.
  rewrite (sum_ext (length voids) _ (fun a => - sum (length voids) (fun b =>
     sum (length voids) (fun c => void_block voids (transp M) c a * dx (nth c voids O)) * W a b * v (nth b voids O)))).
  2:{ intros a Ha. rewrite sum_swap, <- sum_opp. apply sum_ext. intros b Hb.
      pose proof (Z a Ha) as Za. rewrite (split_sum rows voids m) in Za by auto.
      transitivity (sum (length rows) (fun i => M (nth a voids O) (nth i rows O) * dx (nth i rows O)) * (W a b * v (nth b voids O))).
      { rewrite <- sum_scal_r. apply sum_ext. intros; ring. }
      unfold void_block, transp. replace (sum (length rows) (fun i => M (nth a voids O) (nth i rows O) * dx (nth i rows O)))
        with (- sum (length voids) (fun c => M (nth a voids O) (nth c voids O) * dx (nth c voids O))) by lra. ring. }
  rewrite sum_opp, (inv_right _ _ _ (fun c => dx (nth c voids O)) (fun b => v (nth b voids O)) I).
  rewrite (sum_ext (length voids) (fun b => dx _ * v _) (fun b => v (nth b voids O) * dx (nth b voids O))) by (intros; ring). lra.
Qed.
End Cond.

(** ** assembled vectors *)
Section Asm.
Variables (A : lna) (th : params).
Notation C := (la_cons A).

Lemma lres_eq X i : lover A (lres_cell A th X) zero i =
  if constrained C i then 0 else total (fun e => part C (lc_dofs e) (fst (cell_vec_mat A th X e)) i) (filter (takes A th) (cells A)).
Proof.
  rewrite (over_vec A _ (fun e i => zif (takes A th e) (ctr C (lc_dofs e) (fst (cell_vec_mat A th X e)) i))).
  - unfold zero. rewrite Rplus_0_l. destruct (constrained C i) eqn:Ci.
    + apply total_0. intros e _. unfold zif, ctr. rewrite Ci. now destruct (takes A th e).
    + rewrite total_filter. apply total_ext. intros e _. unfold zif, ctr. now rewrite Ci.
  - intros g e j. unfold lres_cell. rewrite counts_eq. destruct (takes A th e); cbn [zif]; [apply add_vector_eq|ring].
Qed.
Lemma ljac_eq X i j : lover A (ljac_cell A th X) mzero i j =
  total (fun e => zif (voided A th e) (mctr C (lc_dofs e) (ident (/ 10 ^ 14)) i j)
                  + zif (takes A th e) (mctr C (lc_dofs e) (snd (cell_vec_mat A th X e)) i j)) (cells A).
Proof.
  rewrite (over_mat A _ (fun e i j => zif (voided A th e) (mctr C (lc_dofs e) (ident (/ 10 ^ 14)) i j)
                  + zif (takes A th e) (mctr C (lc_dofs e) (snd (cell_vec_mat A th X e)) i j))).
  - unfold mzero. ring.
  - intros g e a b. unfold ljac_cell. rewrite counts_eq, blank_eq. unfold zif. destruct (voided A th e), (takes A th e); unfold add_matrix, mctr; ring.
Qed.
Lemma ljac_adm X y i : cells_ok A -> (i < n C)%nat -> admissible C y -> row C i = None ->
  sum (n C) (fun j => lover A (ljac_cell A th X) mzero i j * y j) =
  void_stiffness A th y i +
  total (fun e => part C (lc_dofs e) (fun k => sum (length (lc_dofs e)) (fun l => snd (cell_vec_mat A th X e) k l * gather (lc_dofs e) y l)) i)
    (filter (takes A th) (cells A)).
Proof.
  intros K Hi Ad Ri. assert (Ci : constrained C i = false) by (unfold constrained; now rewrite Ri).
  transitivity (total (fun e => sum (n C) (fun j => (zif (voided A th e) (mctr C (lc_dofs e) (ident (/ 10 ^ 14)) i j)
                  + zif (takes A th e) (mctr C (lc_dofs e) (snd (cell_vec_mat A th X e)) i j)) * y j)) (cells A)).
  { rewrite total_sum. apply sum_ext. intros j _. rewrite ljac_eq, Rmult_comm, <- total_scal. apply total_ext. intros; ring. }
  unfold void_stiffness. rewrite <- total_scal, !total_filter, <- total_plus. apply total_ext. intros e He.
  assert (D : forall d, In d (lc_dofs e) -> (d < n C)%nat) by (intros; now apply (proj1 K e)).
  rewrite (sum_ext _ _ (fun j => zif (voided A th e) (mctr C (lc_dofs e) (ident (/ 10 ^ 14)) i j * y j)
                  + zif (takes A th e) (mctr C (lc_dofs e) (snd (cell_vec_mat A th X e)) i j * y j)))
    by (intros j _; unfold zif; destruct (voided A th e), (takes A th e); ring).
  rewrite sum_plus. f_equal.
  - destruct (voided A th e); cbn [zif]; [|apply sum_0; auto]. rewrite (mat_adm A K) by auto. rewrite Ci. unfold part.
    rewrite <- sum_scal_l. apply sum_ext. intros k Hk. rewrite sum_diag by auto. ring.
  - destruct (takes A th e); cbn [zif]; [|apply sum_0; auto]. rewrite (mat_adm A K) by auto. now rewrite Ci.
Qed.

Lemma lsol_eq X e : lsol A X e = elem_solution A X e. Proof. reflexivity. Qed.
Lemma cell_unfactored X e k : condensed A e = false -> fst (cell_vec_mat A th X e) k = material th e (gather (lc_dofs e) X) k.
Proof.
  intros U. unfold cell_vec_mat, lsol. change (factored A e) with (condensed A e). rewrite U. rewrite pieces_vec_mat.
  unfold zero, material. ring.
Qed.
Lemma cell_mat_unfactored X e k l : condensed A e = false ->
  snd (cell_vec_mat A th X e) k l = total (fun p => pc_jac p th (gather (lc_dofs e) X) k l) (lc_hi e th).
Proof.
  intros U. unfold cell_vec_mat, lsol. change (factored A e) with (condensed A e). rewrite U. rewrite pieces_mat. unfold mzero. ring.
Qed.
Lemma cond_ext e M M' v : M = M' -> lc_cond e M v = lc_cond e M' v. Proof. now intros ->. Qed.
Lemma mscale_homog e x : mscale (lc_frac e th) (pc_jac (lc_whole e) th x) = homog_jac th e x.
Proof.
  apply FunctionalExtensionality.functional_extensionality. intros k. apply FunctionalExtensionality.functional_extensionality. intros l.
  unfold mscale, homog_jac. ring.
Qed.
Lemma vscale_homog e x : vscale (lc_frac e th) (pc_res (lc_whole e) th x) = homog_res th e x.
Proof. apply FunctionalExtensionality.functional_extensionality. intros k. unfold vscale, homog_res. ring. Qed.
Lemma cell_factored X e k rows voids : condensed A e = true ->
  condenses e rows voids (homog_jac th e (elem_solution A X e)) ->
  (forall b, (b < length voids)%nat -> homog_res th e (elem_solution A X e) (nth b voids O) = 0) ->
  fst (cell_vec_mat A th X e) k = restrict rows (homog_res th e (elem_solution A X e)) k.
Proof.
  intros U Co Z. unfold cell_vec_mat. change (factored A e) with (condensed A e). rewrite U, lsol_eq, mscale_homog, vscale_homog.
  destruct (cond_plain e rows voids _ _ Co Z) as (juu & ru & E & H). rewrite E. apply H.
Qed.
Lemma cell_mat_factored X e dx rows voids : condensed A e = true ->
  condenses e rows voids (homog_jac th e (elem_solution A X e)) -> void_follows th e voids (elem_solution A X e) dx ->
  forall k, In k rows -> sum (length (lc_dofs e)) (fun l => snd (cell_vec_mat A th X e) k l * restrict rows dx l)
    = sum (length (lc_dofs e)) (fun l => homog_jac th e (elem_solution A X e) k l * dx l).
Proof.
  intros U Co Z. unfold cell_vec_mat. change (factored A e) with (condensed A e). rewrite U, lsol_eq, mscale_homog, vscale_homog.
  destruct (cond_matrix e rows voids _ (homog_res th e (elem_solution A X e)) dx Co Z) as (juu & ru & E & H). rewrite E. exact H.
Qed.

(** ** sensitivity loop of an unfactored element *)
Lemma sens_none f e x l : condensed A e = false -> la_topo A f = false -> forall s v2 k,
  fst (fold_left (sens_piece A th f e x) l (s, v2)) k = s k + total (fun p => pc_dres p th f x k) l.
Proof.
  intros U T. induction l as [|p l IH]; intros s v2 k; cbn [fold_left]; [unfold total; cbn; ring|].
  unfold sens_piece at 2. change (factored A e) with (condensed A e). rewrite U, T, IH, total_cons. cbn [fst snd]. unfold vplus. ring.
Qed.
Lemma sens_noside f e x l : condensed A e = false -> la_topo A f = true -> (forall p, In p l -> pc_side p = false) -> forall s,
  exists s', fold_left (sens_piece A th f e x) l (s, zero) = (s', zero) /\ forall k, s' k = s k + total (fun p => pc_dres p th f x k) l.
Proof.
  intros U T. induction l as [|p l IH]; intros N s; cbn [fold_left].
  - exists s. split; auto. intros. unfold total; cbn; ring.
  - unfold sens_piece at 2. change (factored A e) with (condensed A e). rewrite U, T, (N p) by now left. cbn [fst snd].
    destruct (IH (fun q Hq => N q (or_intror Hq)) (vplus s (vplus (pc_dres p th f x) zero))) as (s' & E & H). exists s'. split; auto.
    intros k. rewrite H, total_cons. unfold vplus, zero. ring.
Qed.
Lemma sens_side f e x l : condensed A e = false -> la_topo A f = true -> (forall p, In p l -> pc_side p = true) -> forall s v2 k,
  fst (fold_left (sens_piece A th f e x) l (s, v2)) k = s k + total (fun p => pc_dres p th f x k + pc_bnd p th f x k) l.
Proof.
  intros U T. induction l as [|p l IH]; intros N s v2 k; cbn [fold_left]; [unfold total; cbn; ring|].
  unfold sens_piece at 2. change (factored A e) with (condensed A e). rewrite U, T, (N p) by now left. cbn [fst snd].
  rewrite IH by (intros; apply N; now right). rewrite total_cons. unfold vplus. ring.
Qed.
Lemma sens_pieces f e x k : condensed A e = false -> (la_topo A f = true -> sides_last (lc_hi e th)) ->
  fst (fold_left (sens_piece A th f e x) (lc_hi e th) (zero, zero)) k = material_sensitivity A th f e x k.
Proof.
  intros U Sl. unfold material_sensitivity. destruct (la_topo A f) eqn:T.
  - destruct (Sl eq_refl) as (l1 & l2 & -> & N1 & N2). rewrite fold_left_app.
    destruct (sens_noside f e x l1 U T N1 zero) as (s' & E & H). rewrite E, sens_side, H, total_app by auto. unfold zero. rewrite Rplus_0_l.
    f_equal; apply total_ext; intros p Hp; [rewrite (N1 p Hp)|rewrite (N2 p Hp)]; cbn; ring.
  - rewrite sens_none by auto. unfold zero. rewrite Rplus_0_l. apply total_ext. intros; cbn; ring.
Qed.
Lemma lsens_eq f X i : lover A (lsens_cell A th f X) zero i =
  if constrained C i then 0 else
  total (fun e => zif (negb (excluded A f e) && takes A th e)
    (part C (lc_dofs e) (fst (fold_left (sens_piece A th f e (elem_solution A X e)) (lc_hi e th) (zero, zero))) i)) (cells A).
Proof.
  rewrite (over_vec A _ (fun e i => zif (negb (excluded A f e) && takes A th e)
    (ctr C (lc_dofs e) (fst (fold_left (sens_piece A th f e (elem_solution A X e)) (lc_hi e th) (zero, zero))) i))).
  - unfold zero at 1. rewrite Rplus_0_l. destruct (constrained C i) eqn:Ci.
    + apply total_0. intros e _. unfold zif, ctr. rewrite Ci. now destruct (_ && _).
    + apply total_ext. intros e _. unfold zif, ctr. now rewrite Ci.
  - intros g e j. unfold lsens_cell. rewrite counts_eq. change (lskip A f e) with (excluded A f e).
    destruct (excluded A f e), (takes A th e); cbn [negb andb zif]; try ring. apply add_vector_eq.
Qed.

(** ** output *)
Lemma fold_q (f : piece -> R) l : forall q, fold_left (fun q p => q + f p) l q = q + total f l.
Proof. induction l as [|p l IH]; intros q; cbn [fold_left]; [unfold total; cbn; ring|]. rewrite IH, total_cons. ring. Qed.
Lemma lout_eq X : lover A (lout_cell A th X) 0 = total (fun e => cell_output A th (elem_solution A X e) e) (cells A).
Proof.
  rewrite (over_num A _ (fun e => cell_output A th (elem_solution A X e) e)); [ring|].
  intros g e. unfold lout_cell, cell_output. rewrite counts_eq, lsol_eq. destruct (la_low A), (takes A th e); rewrite ?fold_q; ring.
Qed.
Lemma fold_qx (f : piece -> vec) l : forall s k, fold_left (fun s p => vplus s (f p)) l s k = s k + total (fun p => f p k) l.
Proof. induction l as [|p l IH]; intros s k; cbn [fold_left]; [unfold total; cbn; ring|]. rewrite IH, total_cons. unfold vplus. ring. Qed.
Definition outd_vec (X : vec) (e : lcell) (k : nat) : R :=
  (if la_low A then total (fun p => pc_qx p th (elem_solution A X e) k) (lc_lo e th) else 0)
  + (if takes A th e then fold_left (outd_piece A th e (elem_solution A X e)) (lc_hi e th) zero k else 0).
Lemma loutd_eq X i : lover A (loutd_cell A th X) zero i = total (fun e => ctr C (lc_dofs e) (outd_vec X e) i) (cells A).
Proof.
  rewrite (over_vec A _ (fun e => ctr C (lc_dofs e) (outd_vec X e))); [unfold zero; ring|].
  intros g e j. unfold loutd_cell. rewrite counts_eq, lsol_eq.
  assert (P : forall v w, ctr C (lc_dofs e) (fun k => v k + w k) j = ctr C (lc_dofs e) v j + ctr C (lc_dofs e) w j).
  { intros v w. unfold ctr, part. destruct (constrained C j); [ring|]. rewrite <- sum_plus. apply sum_ext. intros; ring. }
  assert (Z : ctr C (lc_dofs e) (fun _ => 0) j = 0).
  { unfold ctr, part. destruct (constrained C j); auto. apply sum_0. intros; ring. }
  unfold outd_vec. rewrite P. rewrite <- Rplus_assoc.
  set (g1 := if la_low A && _ then _ else g).
  assert (E : g1 j = g j + ctr C (lc_dofs e) (fun k => if la_low A then total (fun p => pc_qx p th (elem_solution A X e) k) (lc_lo e th) else 0) j).
  { unfold g1. destruct (la_low A); cbn [andb].
    - destruct (lc_lo e th) as [|p l] eqn:L; cbn [length Nat.eqb negb].
      + unfold total; cbn [map lsum fold_right]. rewrite Z. ring.
      + rewrite add_vector_eq. f_equal. apply ctr_ext. intros k _. rewrite fold_qx. unfold zero. ring.
    - rewrite Z. ring. }
  rewrite <- E. destruct (takes A th e).
  - rewrite add_vector_eq. f_equal.
  - rewrite Z. ring.
Qed.
Lemma outd_unfactored X e k : condensed A e = false -> outd_vec X e k = total (fun p => pc_qx p th (gather (lc_dofs e) X) k) (counted_pieces A th e).
Proof.
  intros U. unfold outd_vec, counted_pieces. rewrite total_app.
  assert (E : elem_solution A X e = gather (lc_dofs e) X) by (unfold elem_solution; now rewrite U). rewrite E. f_equal.
  - destruct (la_low A); [reflexivity|]. unfold total; reflexivity.
  - destruct (takes A th e); [|unfold total; reflexivity].
    transitivity (fold_left (fun s p => vplus s (pc_qx p th (gather (lc_dofs e) X))) (lc_hi e th) zero k).
    + f_equal. unfold outd_piece. change (factored A e) with (condensed A e). now rewrite U.
    + rewrite fold_qx. unfold zero. ring.
Qed.
Lemma outd_factored e x dx rows voids l : condensed A e = true ->
  condenses e rows voids (transp (homog_jac th e x)) -> void_follows th e voids x dx -> forall s,
  sum (length (lc_dofs e)) (fun k => fold_left (outd_piece A th e x) l s k * dx k) =
  sum (length (lc_dofs e)) (fun k => s k * dx k) + total (fun p => sum (length (lc_dofs e)) (fun k => pc_qx p th x k * dx k)) l.
Proof.
  intros U Co Z. induction l as [|p l IH]; intros s; cbn [fold_left]; [unfold total; cbn; ring|].
  rewrite IH, total_cons. unfold outd_piece. change (factored A e) with (condensed A e). rewrite U, mscale_homog.
  destruct (cond_gradient e rows voids _ (pc_qx p th x) dx Co Z) as (juu & ru & E & H). rewrite E, <- H.
  rewrite <- Rplus_assoc. f_equal. rewrite <- sum_plus. apply sum_ext. intros. unfold vplus. ring.
Qed.
Lemma fold_qs f x dx l : forall q, fold_left (louts_piece A th f x dx) l q =
  q + total (fun p => pc_qs p th f x dx + (if la_topo A f then pc_qb p th f x else 0)) l.
Proof.
  induction l as [|p l IH]; intros q; cbn [fold_left]; [unfold total; cbn; ring|]. rewrite IH, total_cons. unfold louts_piece.
  destruct (la_topo A f); ring.
Qed.
Lemma louts_eq f X dX : lover A (louts_cell A th f X dX) 0 =
  total (fun e => zif (negb (excluded A f e && match dX with None => true | Some _ => la_override A end))
    (share_sensitivity A th f e (elem_solution A X e) (match dX with Some d => gather (lc_dofs e) d | None => zero end))) (cells A).
Proof.
  rewrite (over_num A _ (fun e => zif (negb (excluded A f e && match dX with None => true | Some _ => la_override A end))
    (share_sensitivity A th f e (elem_solution A X e) (match dX with Some d => gather (lc_dofs e) d | None => zero end)))); [ring|].
  intros g e. unfold louts_cell, lskip_out. change (lskip A f e) with (excluded A f e). rewrite lsol_eq.
  destruct (excluded A f e && _); cbn [negb zif]; [ring|]. unfold share_sensitivity, counted_pieces. rewrite counts_eq, total_app.
  destruct (la_low A), (takes A th e); rewrite ?fold_qs; unfold total; cbn [map lsum fold_right]; ring.
Qed.
End Asm.
