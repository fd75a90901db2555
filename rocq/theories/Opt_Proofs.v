(** Proofs about the optimiser interfaces: array copies, NPSOL tables, gradient check. *)
From Coq Require Import List Arith Lia Bool Reals Lra ZArith.
From Verif Require Import Base BaseLemmas RBool Opt_Model Opt_Spec.
Import ListNotations.
Open Scope nat_scope.

(** ** Writing consecutive entries *)
Lemma write_run : forall (n off : nat) (body : nat -> arr R -> outcome (arr R)) (val : nat -> R)
  (w : arr R),
  (forall j v, j < n -> len v = len w -> body j v = set v (off + j) (val j)) ->
  off + n <= len w ->
  exists w', loop n body w = Ok w' /\ len w' = len w /\
    forall k, cell w' k = if (off <=? k) && (k <? off + n) then val (k - off) else cell w k.
Proof.
  intros n off body val w Hb Hl.
  destruct (loop_inv (fun j w' => len w' = len w /\
     forall k, cell w' k = if (off <=? k) && (k <? off + j) then val (k - off) else cell w k)
     n body w) as [w' [E [L C]]].
  - split; auto. intro k. destruct (off <=? k) eqn:A; simpl; auto.
    apply Nat.leb_le in A. replace (k <? off + 0) with false; auto.
    symmetry; apply Nat.ltb_ge; lia.
  - intros j s Hj [L C]. rewrite Hb by auto. rewrite set_ok by lia.
    eexists. split; [reflexivity|]. cbn [len cell]. split; auto.
    intro k. unfold upd. destruct (k =? off + j) eqn:A.
    + apply Nat.eqb_eq in A. subst k.
      replace (off <=? off + j) with true by (symmetry; apply Nat.leb_le; lia).
      replace (off + j <? off + S j) with true by (symmetry; apply Nat.ltb_lt; lia).
      simpl. f_equal. lia.
    + rewrite C. apply Nat.eqb_neq in A.
      destruct (off <=? k) eqn:B; simpl; auto.
      destruct (Nat.ltb_spec k (off + j)), (Nat.ltb_spec k (off + S j)); auto; try lia.
  - exists w'. auto.
Qed.

Lemma write_rows : forall (m n off : nat) (body : nat -> nat -> arr R -> outcome (arr R))
  (val : nat -> nat -> R) (w : arr R),
  (forall i j v, i < m -> j < n -> len v = len w ->
     body i j v = set v (off + i * n + j) (val i j)) ->
  off + m * n <= len w ->
  exists w', loop m (fun i v => loop n (body i) v) w = Ok w' /\ len w' = len w /\
    (forall i j, i < m -> j < n -> cell w' (off + i * n + j) = val i j) /\
    (forall k, k < off \/ off + m * n <= k -> cell w' k = cell w k).
Proof.
  intros m n off body val w Hb Hl.
  destruct (loop_inv (fun r w' => len w' = len w /\
     (forall i j, i < r -> j < n -> cell w' (off + i * n + j) = val i j) /\
     (forall k, k < off \/ off + r * n <= k -> cell w' k = cell w k))
     m (fun i v => loop n (body i) v) w) as [w' [E H]].
  - split; auto. split; [intros; lia|auto].
  - intros r s Hr [L [C U]].
    assert (Hrn : off + r * n + n <= len s) by (rewrite L; nia).
    destruct (write_run n (off + r * n) (body r) (val r) s) as [s' [E [L' C']]]; auto.
    { intros j v Hj Lv. apply Hb; auto. congruence. }
    exists s'. split; auto. split; [congruence|]. split.
    + intros i j Hi Hj. rewrite C'.
      destruct (Nat.eq_dec i r) as [->|Ne].
      * replace (off + r * n <=? off + r * n + j) with true by (symmetry; apply Nat.leb_le; lia).
        replace (off + r * n + j <? off + r * n + n) with true by (symmetry; apply Nat.ltb_lt; lia).
        simpl. f_equal. lia.
      * assert (i < r) by lia. assert (off + i * n + j < off + r * n) by nia.
        replace (off + r * n <=? off + i * n + j) with false by (symmetry; apply Nat.leb_gt; lia).
        simpl. apply C; auto.
    + intros k Hk. rewrite C'.
      destruct ((off + r * n <=? k) && (k <? off + r * n + n)) eqn:B.
      * apply andb_true_iff in B as [B1 B2]. apply Nat.leb_le in B1. apply Nat.ltb_lt in B2. nia.
      * apply U. nia.
  - exists w'. tauto.
Qed.

(** ** NLopt *)
Lemma nlopt_constraints_ok : forall E n m result x g, keeps_sizes E -> len g = m * n ->
  exists g', nlopt_constraints E n m m result n x (Some g) = Ok (result, Some g') /\
    len g' = m * n /\
    forall i j, i < m -> j < n ->
      cell g' (i * n + j) =
      user_grad m (E x false (mkArr m (fun _ => true))
                     (mkBuf 0 (fill n 0%R) (fill m 0%R) (fill (n * m) 0%R))) i j.
Proof.
  intros E n m result x g HE Hg. unfold nlopt_constraints. rewrite !Nat.eqb_refl.
  cbn [assert_]. cbv zeta. unfold afill. unfold fill at 1.
  set (b := E x false _ _).
  assert (Lb : len (e_df b) = n * m) by (subst b; destruct (HE x false (mkArr m (fun _ => true))
     (mkBuf 0 (fill n 0%R) (fill m 0%R) (fill (n * m) 0%R))) as [_ [_ H]]; exact H).
  destruct (write_rows m n 0 (fun i j w => v <- get (e_df b) (j * m + i) ;; set w (i * n + j) v)
              (fun i j => cell (e_df b) (j * m + i)) g) as [g' [E1 [L [C _]]]].
  - intros i j v Hi Hj _. rewrite get_ok; [reflexivity|]. rewrite Lb. apply flat_lt; auto.
  - simpl. lia.
  - exists g'. rewrite E1. cbn [bind]. split; auto. split; [congruence|].
    intros i j Hi Hj. change (cell g' (i * n + j) = cell (e_df b) (j * m + i)).
    rewrite <- (C i j Hi Hj). f_equal.
Qed.

Lemma nlopt_objective_ok : forall E n m x g, keeps_sizes E -> len g = n ->
  exists v g', nlopt_objective E n m n x (Some g) = Ok (v, Some g') /\
    let b := E x true (mkArr m (fun _ => false))
               (mkBuf 0 (fill n 0%R) (fill m 0%R) (fill (n * m) 0%R)) in
    v = e_obj b /\ forall j, j < n -> cell g' j = cell (e_dobj b) j.
Proof.
  intros E n m x g HE Hg. unfold nlopt_objective. rewrite Nat.eqb_refl.
  cbn [assert_]. cbv zeta. unfold afill. unfold fill at 1.
  set (b := E x true _ _).
  assert (Lb : len (e_dobj b) = n) by (subst b; destruct (HE x true (mkArr m (fun _ => false))
     (mkBuf 0 (fill n 0%R) (fill m 0%R) (fill (n * m) 0%R))) as [H _]; exact H).
  destruct (write_run n 0 (fun i g => v <- get (e_dobj b) i ;; set g i v)
              (fun j => cell (e_dobj b) j) g) as [g' [E1 [L C]]].
  - intros j v Hj _. rewrite get_ok by lia. reflexivity.
  - lia.
  - rewrite E1. cbn [bind]. exists (e_obj b), g'. split; auto. split; [reflexivity|].
    intros j Hj. rewrite C. replace (0 <=? j) with true by (symmetry; apply Nat.leb_le; lia).
    replace (j <? 0 + n) with true by (symmetry; apply Nat.ltb_lt; lia). simpl. f_equal. lia.
Qed.

(** ** DOT *)
Lemma dot_copy_ok : forall ndv ncon df0dx dfdx iprm iwk wk nact, ndv > 0 -> ncon > 0 ->
  len df0dx = ndv -> len dfdx = ndv * ncon -> len iprm = 20 -> cell iprm 19 = nact ->
  nact <= ncon -> len iwk = dot_nriwk ndv ncon -> len wk = dot_nrwk ndv ncon ->
  (forall i, i < nact -> 1 <= cell iwk i <= ncon) ->
  exists wk', dot_copy ndv ncon df0dx dfdx iprm iwk wk = Ok wk' /\
    (forall j, j < ndv -> cell wk' j = cell df0dx j) /\
    (forall i j, i < nact -> j < ndv ->
       cell wk' ((i + 1) * ndv + j) = cell dfdx (j * ncon + (cell iwk i - 1))) /\
    (forall k, (nact + 1) * ndv <= k -> cell wk' k = cell wk k).
Proof.
  intros ndv ncon df0dx dfdx iprm iwk wk nact Hn Hc L0 L1 Lp Ha Hle Li Lw Hid.
  assert (R1 : (nact + 1) * ndv <= len wk)
    by (rewrite Lw; unfold dot_nrwk; apply Nat.le_trans with (ndv * ncon * 10);
        [nia|apply Nat.le_max_l]).
  assert (R2 : nact <= len iwk)
    by (rewrite Li; unfold dot_nriwk; apply Nat.le_trans with (ndv * ncon * 10);
        [nia|apply Nat.le_max_l]).
  unfold dot_copy.
  destruct (write_run ndv 0 (fun i w => v <- get df0dx i ;; set w i v)
              (fun j => cell df0dx j) wk) as [w1 [E1 [Lw1 C1]]].
  - intros j v Hj _. rewrite get_ok by lia. reflexivity.
  - simpl. nia.
  - rewrite E1. cbn [bind]. rewrite (get_ok iprm) by lia. rewrite Ha. cbn [bind].
    set (body := fun i j w => v <- (if j * ncon + cell iwk i =? 0 then Fault OutOfBounds
       else get dfdx (j * ncon + cell iwk i - 1)) ;; set w ((i + 1) * ndv + j) v).
    rewrite (loop_ext nact _ (fun i w => loop ndv (body i) w)).
    2:{ intros i s Hi. rewrite (get_ok iwk) by lia. reflexivity. }
    destruct (write_rows nact ndv ndv body
                (fun i j => cell dfdx (j * ncon + (cell iwk i - 1))) w1)
      as [w2 [E2 [Lw2 [C2 U2]]]].
    + intros i j v Hi Hj _. unfold body. specialize (Hid i Hi).
      replace (j * ncon + cell iwk i =? 0) with false by (symmetry; apply Nat.eqb_neq; lia).
      replace (j * ncon + cell iwk i - 1) with (j * ncon + (cell iwk i - 1)) by lia.
      rewrite get_ok by (rewrite L1; apply flat_lt; lia). cbn [bind]. f_equal. lia.
    + rewrite Lw1. lia.
    + exists w2. split; auto. repeat split.
      * intros j Hj. rewrite U2 by lia. rewrite C1.
        replace (0 <=? j) with true by (symmetry; apply Nat.leb_le; lia).
        replace (j <? 0 + ndv) with true by (symmetry; apply Nat.ltb_lt; lia).
        simpl. f_equal. lia.
      * intros i j Hi Hj. rewrite <- (C2 i j Hi Hj). f_equal. lia.
      * intros k Hk. rewrite U2 by lia. rewrite C1.
        replace (k <? 0 + ndv) with false by (symmetry; apply Nat.ltb_ge; nia).
        now rewrite andb_false_r.
Qed.

(** ** NPSOL *)
Lemma npsol_bounds_ok : forall n m xmin xmax, len xmin = n -> len xmax = n ->
  exists bl bu, npsol_bounds n m xmin xmax = Ok (bl, bu) /\
    len bl = n + m /\ len bu = n + m /\
    (forall i, i < n -> cell bl i = cell xmin i /\ cell bu i = cell xmax i) /\
    (forall i, i < m -> cell bl (n + i) = (- 1e20)%R /\ cell bu (n + i) = 0%R).
Proof.
  intros n m xmin xmax L1 L2. unfold npsol_bounds. cbv zeta. unfold afill.
  match goal with |- context [loop n ?body ?s0] =>
    destruct (loop_inv (fun k s => len (fst s) = n + m /\ len (snd s) = n + m /\
      forall i, i < k -> cell (fst s) i = cell xmin i /\ cell (snd s) i = cell xmax i)
      n body s0) as [s1 [E1 [A1 [B1 C1]]]] end.
  - cbn [fst snd fill len]. repeat split; try lia.
  - intros k [bl bu] Hk [A [B C]]. cbn [fst snd] in *.
    rewrite get_ok by lia. cbn [bind]. rewrite set_ok by lia. cbn [bind].
    rewrite get_ok by lia. cbn [bind]. rewrite set_ok by lia. cbn [bind].
    eexists. split; [reflexivity|]. cbn [fst snd len cell]. split; auto. split; auto.
    intros i Hi. unfold upd. destruct (Nat.eqb_spec i k); [subst; auto|]. apply C. lia.
  - rewrite E1. cbn [bind].
    match goal with |- context [loop m ?body ?s0] =>
      destruct (loop_inv (fun k s => len (fst s) = n + m /\ len (snd s) = n + m /\
        (forall i, i < n -> cell (fst s) i = cell xmin i /\ cell (snd s) i = cell xmax i) /\
        (forall i, i < k -> cell (fst s) (n + i) = (- 1e20)%R /\ cell (snd s) (n + i) = 0%R))
        m body s0) as [s2 [E2 [A2 [B2 [C2 D2]]]]] end.
    + repeat split; auto; try lia; apply C1; auto.
    + intros k [bl bu] Hk [A [B [C D]]]. cbn [fst snd] in *.
      rewrite set_ok by lia. cbn [bind]. rewrite set_ok by lia. cbn [bind].
      eexists. split; [reflexivity|]. cbn [fst snd len cell]. split; auto. split; auto. split.
      * intros i Hi. unfold upd. replace (i =? k + n) with false
          by (symmetry; apply Nat.eqb_neq; lia). auto.
      * intros i Hi. unfold upd. destruct (Nat.eqb_spec (n + i) (k + n)); auto. apply D. lia.
    + destruct s2 as [bl bu]. exists bl, bu. cbn [fst snd] in *. auto.
Qed.

(** ** Gradient check *)
Lemma mismatch_spec : forall a fd tol, (0 <= tol)%R ->
  mismatch a fd tol = false <-> (Rabs (a - fd) <= tol * Rabs a)%R.
Proof.
  intros a fd tol Ht. unfold mismatch. destruct (reqb a 0) eqn:Ea.
  - apply reqb_true in Ea. subst a. rewrite Rabs_R0, Rmult_0_r.
    destruct (reqb fd 0) eqn:Ef.
    + apply reqb_true in Ef. subst. split; auto. intros _. rewrite Rminus_0_r, Rabs_R0. lra.
    + apply reqb_false in Ef. simpl. split; [discriminate|]. intro H. exfalso. apply Ef.
      destruct (Req_dec (0 - fd) 0) as [K|K]; [lra|].
      pose proof (Rabs_pos_lt _ K). lra.
  - apply reqb_false in Ea. rewrite rltb_false.
    assert (P : (0 < Rabs a)%R) by now apply Rabs_pos_lt.
    unfold Rdiv. rewrite Rabs_mult, Rabs_inv. split; intro H.
    + apply (Rmult_le_compat_r (Rabs a)) in H; [|lra].
      rewrite Rmult_assoc, Rinv_l in H by lra. lra.
    + apply (Rmult_le_reg_r (Rabs a)); auto. rewrite Rmult_assoc, Rinv_l by lra. lra.
Qed.

Lemma flag_loop : forall n (bad : nat -> bool) (body : nat -> bool -> outcome bool) b0,
  (forall i b, i < n -> body i b = Ok (if bad i then false else b)) ->
  loop n body b0 = Ok (b0 && forallb (fun i => negb (bad i)) (seq 0 n)).
Proof.
  intros n bad body b0 H. induction n.
  - simpl. now rewrite andb_true_r.
  - cbn [loop]. rewrite IHn by (intros; apply H; lia). cbn [bind]. rewrite H by lia. f_equal.
    rewrite seq_S, forallb_app. simpl. destruct (bad n); simpl.
    + now rewrite andb_false_r, andb_false_r.
    + now rewrite andb_true_r.
Qed.

Lemma compare_grads_ok : forall n m tol og gg ogfd ggfd, (0 <= tol)%R ->
  len og = n -> len ogfd = n -> len gg = n * m -> len ggfd = n * m ->
  exists b, compare_grads n m tol og gg ogfd ggfd = Ok b /\
    (b = true <->
     (forall i, i < n -> (Rabs (cell og i - cell ogfd i) <= tol * Rabs (cell og i))%R) /\
     (forall i j, i < n -> j < m ->
        (Rabs (cell gg (i * m + j) - cell ggfd (i * m + j)) <=
         tol * Rabs (cell gg (i * m + j)))%R)).
Proof.
  intros n m tol og gg ogfd ggfd Ht L1 L2 L3 L4. unfold compare_grads.
  rewrite (flag_loop n (fun i => mismatch (cell og i) (cell ogfd i) tol)).
  2:{ intros i b Hi. rewrite !get_ok by lia. reflexivity. }
  cbn [bind].
  rewrite (flag_loop m (fun j => negb (forallb (fun i => negb (mismatch (cell gg (i * m + j))
     (cell ggfd (i * m + j)) tol)) (seq 0 n)))).
  2:{ intros j b Hj.
      rewrite (flag_loop n (fun i => mismatch (cell gg (i * m + j)) (cell ggfd (i * m + j)) tol)).
      - destruct (forallb _ _); simpl; f_equal; [apply andb_true_r|apply andb_false_r].
      - intros i b' Hi. rewrite get_ok by (rewrite L3; apply flat_lt; auto). cbn [bind].
        rewrite get_ok by (rewrite L4; apply flat_lt; auto). reflexivity. }
  eexists. split; [reflexivity|]. cbn [andb]. rewrite andb_true_iff, !forallb_forall. split.
  - intros [H1 H2]. split.
    + intros i Hi. apply mismatch_spec; auto.
      assert (In i (seq 0 n)) by (apply in_seq; lia). apply H1 in H.
      now destruct (mismatch _ _ _).
    + intros i j Hi Hj. apply mismatch_spec; auto.
      assert (In j (seq 0 m)) by (apply in_seq; lia). apply H2 in H.
      rewrite negb_involutive, forallb_forall in H.
      assert (In i (seq 0 n)) by (apply in_seq; lia). apply H in H0.
      now destruct (mismatch _ _ _).
  - intros [H1 H2]. split.
    + intros i Hi. apply in_seq in Hi. rewrite (proj2 (mismatch_spec _ _ _ Ht)); auto.
      apply H1. lia.
    + intros j Hj. apply in_seq in Hj. rewrite negb_involutive, forallb_forall.
      intros i Hi. apply in_seq in Hi. rewrite (proj2 (mismatch_spec _ _ _ Ht)); auto.
      apply H2; lia.
Qed.

Lemma fd_loop_ok : forall E n m f0 fc g0 gc x delta og gg,
  computes E n m f0 fc g0 gc -> respects n f0 -> (forall j, j < m -> respects n (fc j)) ->
  delta <> 0%R -> len x = n -> len og = n -> len gg = n * m ->
  exists og' gg', fd_loop E n m x delta (og, gg) = Ok (og', gg') /\
    len og' = n /\ len gg' = n * m /\
    (forall i, i < n -> cell og' i = central f0 (cell x) i delta) /\
    (forall i j, i < n -> j < m -> cell gg' (i * m + j) = central (fc j) (cell x) i delta).
Proof.
  intros E n m f0 fc g0 gc x delta og gg HE Rf Rc Hd Lx Lo Lg.
  destruct HE as [Hs [Ho [Hf [_ [_ [Kd Kg]]]]]].
  unfold fd_loop, afill, fill.
  match goal with |- context [loop n ?body ?s0] =>
    destruct (loop_inv (fun k s => len (fst s) = n /\ len (snd s) = n * m /\
      (forall i, i < k -> cell (fst s) i = central f0 (cell x) i delta) /\
      (forall i j, i < k -> j < m ->
         cell (snd s) (i * m + j) = central (fc j) (cell x) i delta))
      n body s0) as [s1 [E1 H1]] end.
  - cbn [fst snd]. repeat split; auto; intros; lia.
  - intros k [o g] Hk [A [B [C D]]]. cbn [fst snd] in A, B, C, D.
    rewrite get_ok by lia. cbn [bind]. rewrite set_ok by lia. cbn [bind].
    set (xp := mkArr (len x) (upd (cell x) k (cell x k + delta)%R)).
    cbn [fst snd].
    set (bp := E xp false (mkArr m (fun _ => false)) (mkBuf 0 o (mkArr m (fun _ => 0%R)) g)).
    assert (Lxp : len xp = n) by (subst xp; exact Lx).
    rewrite (get_ok xp) by lia. cbn [bind]. rewrite (set_ok xp) by lia. cbn [bind].
    set (xm := mkArr (len xp) (upd (cell xp) k (cell xp k - 2 * delta)%R)).
    set (bm := E xm false (mkArr m (fun _ => false)) (mkBuf 0 (e_dobj bp) (mkArr m (fun _ => 0%R)) (e_df bp))).
    assert (Lxm : len xm = n) by (subst xm; exact Lxp).
    assert (Dp : e_dobj bp = o) by (unfold bp; rewrite Kd; reflexivity).
    assert (Gp : e_df bp = g) by (unfold bp; rewrite Kg; reflexivity).
    assert (Dm : e_dobj bm = o) by (unfold bm; rewrite Kd; exact Dp).
    assert (Gm : e_df bm = g) by (unfold bm; rewrite Kg; exact Gp).
    assert (Fp : len (e_f bp) = m) by (unfold bp; destruct (Hs xp false (mkArr m (fun _ => false))
        (mkBuf 0 o (mkArr m (fun _ => 0%R)) g)) as [_ [H _]]; exact H).
    assert (Fm : len (e_f bm) = m) by (unfold bm; destruct (Hs xm false (mkArr m (fun _ => false))
        (mkBuf 0 (e_dobj bp) (mkArr m (fun _ => 0%R)) (e_df bp))) as [_ [H _]]; exact H).
    assert (Exm : forall q, cell xm q = upd (cell x) k (cell x k - delta)%R q).
    { intro q. unfold xm, xp, upd; cbn [cell]. destruct (q =? k) eqn:Eq; auto.
      rewrite Nat.eqb_refl. ring. }
    assert (Cen : forall f, respects n f ->
       ((f (cell xp) - f (cell xm)) / 2 / delta)%R = central f (cell x) k delta).
    { intros f Hf'. unfold central.
      rewrite (Hf' (cell xm) (upd (cell x) k (cell x k - delta)%R)) by (intros; apply Exm).
      unfold xp; cbn [cell]. field. exact Hd. }
    rewrite Dm. rewrite set_ok by lia. cbn [bind]. rewrite Gm.
    destruct (write_run m (k * m) (fun j gg => p <- get (e_f bp) j ;; q <- get (e_f bm) j ;;
                              set gg (k * m + j) ((p - q) / 2 / delta)%R)
                (fun j => central (fc j) (cell x) k delta) g) as [g' [E2 [L2 C2]]].
    + intros j v Hj _. rewrite get_ok by lia. cbn [bind]. rewrite get_ok by lia. cbn [bind].
      f_equal. rewrite <- (Cen (fc j)) by auto.
      unfold bp, bm. rewrite !Hf by auto. reflexivity.
    + rewrite B. nia.
    + rewrite E2. cbn [bind]. eexists. split; [reflexivity|]. cbn [fst snd len cell].
      split; auto. split; [congruence|]. split.
      * intros i Hi. unfold upd. destruct (Nat.eqb_spec i k).
        -- subst i. rewrite <- (Cen f0) by auto. unfold bp, bm. rewrite !Ho by auto. reflexivity.
        -- apply C. lia.
      * intros i j Hi Hj. rewrite C2. destruct (Nat.eq_dec i k).
        -- subst i. replace (k * m <=? k * m + j) with true by (symmetry; apply Nat.leb_le; lia).
           replace (k * m + j <? k * m + m) with true by (symmetry; apply Nat.ltb_lt; lia).
           simpl. f_equal. f_equal. lia.
        -- assert (i < k) by lia.
           replace (k * m <=? i * m + j) with false by (symmetry; apply Nat.leb_gt; nia).
           simpl. apply D; auto.
  - destruct s1 as [o g]. exists o, g. cbn [fst snd] in H1. tauto.
Qed.

(** central differences of quadratics *)
Open Scope R_scope.

Lemma sum_upd_lin : forall n (b x : nat -> R) i t, (i < n)%nat ->
  sum n (fun k => b k * upd x i t k) = sum n (fun k => b k * x k) + b i * (t - x i).
Proof.
  intros n b x i t Hi.
  replace (sum n (fun k => b k * upd x i t k))
    with (sum n (fun k => b k * x k + b k * (upd x i t k - x k)))
    by (apply sum_ext; intros; ring).
  rewrite sum_plus. f_equal. rewrite (sum_single n i); auto.
  - now rewrite upd_same.
  - intros k _ Hk. rewrite upd_other by auto. ring.
Qed.

Lemma quad_line : forall n c b A x i, (i < n)%nat -> exists p q r, forall t,
  c + sum n (fun k => b k * upd x i t k) +
  sum n (fun k => sum n (fun l => A k l * upd x i t k * upd x i t l)) = p + q * t + r * (t * t).
Proof.
  intros n c b A x i Hi.
  exists (c + sum n (fun k => b k * upd x i 0 k)
            + sum n (fun k => sum n (fun l => A k l * upd x i 0 k * upd x i 0 l))),
         (b i + sum n (fun l => A i l * upd x i 0 l) + sum n (fun k => A k i * upd x i 0 k)),
         (A i i).
  intro t.
  assert (U : forall k, upd x i t k = upd x i 0 k + (if (k =? i)%nat then t else 0)).
  { intro k. unfold upd. destruct (k =? i)%nat; ring. }
  assert (Sg : forall f : nat -> R, sum n (fun k => f k * (if (k =? i)%nat then t else 0)) = f i * t).
  { intro f. rewrite (sum_single n i); auto.
    - now rewrite Nat.eqb_refl.
    - intros k _ Hk. apply Nat.eqb_neq in Hk. rewrite Hk. ring. }
  rewrite (sum_ext n (fun k => b k * upd x i t k)
     (fun k => b k * upd x i 0 k + b k * (if (k =? i)%nat then t else 0)))
    by (intros; rewrite U; ring).
  rewrite sum_plus, Sg.
  rewrite (sum_ext n (fun k => sum n (fun l => A k l * upd x i t k * upd x i t l))
    (fun k => sum n (fun l => A k l * upd x i 0 k * upd x i 0 l)
              + (A k i * upd x i 0 k) * t
              + (sum n (fun l => A k l * upd x i 0 l) + A k i * t)
                * (if (k =? i)%nat then t else 0))).
  - rewrite !sum_plus, Sg, sum_scal_r. ring.
  - intros k Hk.
    rewrite (sum_ext n (fun l => A k l * upd x i t k * upd x i t l)
      (fun l => A k l * upd x i 0 k * upd x i 0 l
              + (A k l * upd x i 0 k) * (if (l =? i)%nat then t else 0)
              + (if (k =? i)%nat then t else 0) * (A k l * upd x i 0 l)
              + (A k l * (if (k =? i)%nat then t else 0)) * (if (l =? i)%nat then t else 0)))
      by (intros; rewrite (U k), (U k0); ring).
    rewrite !sum_plus, sum_scal_l.
    rewrite (Sg (fun l => A k l * upd x i 0 k)).
    rewrite (Sg (fun l => A k l * (if (k =? i)%nat then t else 0))).
    ring.
Qed.

Lemma quadratic_central : forall n f x i d g, quadratic n f -> (i < n)%nat -> d <> 0 ->
  partial f x i g -> central f x i d = g.
Proof.
  intros n f x i d g [c [b [A Hf]]] Hi Hd Hg.
  destruct (quad_line n c b A x i Hi) as [p [q [r Hq]]].
  assert (F : forall t, f (upd x i t) = p + q * t + r * (t * t)) by (intro; rewrite Hf; apply Hq).
  assert (Dg : g = q + r * (2 * x i)).
  { apply (uniqueness_limite (fun t => f (upd x i t)) (x i)); auto.
    intros eps He. assert (D : derivable_pt_lim (fun t => p + q * t + r * (t * t)) (x i)
      (0 + q * 1 + r * (1 * x i + x i * 1))).
    { apply (derivable_pt_lim_plus (fun t => p + q * t) (fun t => r * (t * t))).
      - apply (derivable_pt_lim_plus (fun _ => p) (fun t => q * t)).
        + apply derivable_pt_lim_const.
        + apply (derivable_pt_lim_scal id q). apply derivable_pt_lim_id.
      - apply (derivable_pt_lim_scal (fun t => t * t) r).
        apply (derivable_pt_lim_mult id id); apply derivable_pt_lim_id. }
    destruct (D eps He) as [dl Hdl]. exists dl. intros h H1 H2.
    rewrite !F. specialize (Hdl h H1 H2).
    replace (q + r * (2 * x i)) with (0 + q * 1 + r * (1 * x i + x i * 1)) by ring. exact Hdl. }
  unfold central. rewrite !F, Dg. field. exact Hd.
Qed.
