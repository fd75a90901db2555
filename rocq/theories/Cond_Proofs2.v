(** Condensation algebra; runs around a patch. *)
From Coq Require Import List Arith Lia Bool Reals Lra Permutation Sorted.
From Verif Require Import Base BaseLemmas RBool Cond_Model Cond_Spec Cond_Proofs.
Import ListNotations.
Open Scope R_scope.

Lemma nodup_app : forall (l1 l2 : list nat), NoDup l1 -> NoDup l2 ->
  (forall k, In k l1 -> ~ In k l2) -> NoDup (l1 ++ l2).
Proof.
  induction l1 as [|a t IH]; intros l2 N1 N2 D; simpl; auto. inversion N1; subst. constructor.
  - rewrite in_app_iff. intros [K|K]; [contradiction|]. apply (D a); auto. now left.
  - apply IH; auto. intros k Hk. apply D. now right.
Qed.

Lemma condense : forall nu nf (A B C D X : nat -> nat -> R) (ru rf du : nat -> R),
  (forall i j, (i < nf)%nat -> (j < nf)%nat ->
     sum nf (fun k => D i k * X k j) = if (i =? j)%nat then 1 else 0) ->
  (forall i, (i < nu)%nat ->
     sum nu (fun j => (A i j - sum nf (fun k => sum nf (fun l => B i l * X l k) * C k j)) * du j) =
     - (ru i - sum nf (fun k => sum nf (fun l => B i l * X l k) * rf k))) ->
  let df k := sum nf (fun l => X k l * (- rf l - sum nu (fun j => C l j * du j))) in
  (forall i, (i < nu)%nat ->
     sum nu (fun j => A i j * du j) + sum nf (fun k => B i k * df k) = - ru i) /\
  (forall i, (i < nf)%nat ->
     sum nu (fun j => C i j * du j) + sum nf (fun k => D i k * df k) = - rf i).
Proof.
  intros nu nf A B C D X ru rf du Inv H df.
  set (b := fun l => - rf l - sum nu (fun j => C l j * du j)).
  split.
  - intros i Hi. specialize (H i Hi).
    set (P := fun k => sum nf (fun l => B i l * X l k)) in *.
    assert (E1 : sum nf (fun k => B i k * df k) = sum nf (fun l => P l * b l)).
    { unfold df. fold b.
      transitivity (sum nf (fun k => sum nf (fun l => B i k * (X k l * b l)))).
      - apply sum_ext. intros k _. now rewrite <- sum_scal_l.
      - rewrite sum_swap. apply sum_ext. intros l _. unfold P. rewrite <- sum_scal_r.
        apply sum_ext. intros; ring. }
    assert (E2 : sum nu (fun j => (A i j - sum nf (fun k => P k * C k j)) * du j) =
       sum nu (fun j => A i j * du j) - sum nf (fun k => P k * sum nu (fun j => C k j * du j))).
    { transitivity (sum nu (fun j => A i j * du j - sum nf (fun k => P k * C k j * du j))).
      - apply sum_ext. intros j _. rewrite Rmult_minus_distr_r. f_equal. now rewrite <- sum_scal_r.
      - rewrite sum_minus. f_equal. rewrite sum_swap. apply sum_ext. intros k _.
        rewrite <- sum_scal_l. apply sum_ext. intros; ring. }
    rewrite E1. change (fun k => sum nf (fun l => B i l * X l k) * rf k) with (fun k => P k * rf k) in H.
    change (fun j => (A i j - sum nf (fun k => sum nf (fun l => B i l * X l k) * C k j)) * du j)
      with (fun j => (A i j - sum nf (fun k => P k * C k j)) * du j) in H.
    rewrite E2 in H.
    assert (E3 : sum nf (fun l => P l * b l) = - sum nf (fun k => P k * rf k)
       - sum nf (fun k => P k * sum nu (fun j => C k j * du j))).
    { rewrite <- sum_opp, <- sum_minus. apply sum_ext. intros. unfold b. ring. }
    rewrite E3. lra.
  - intros i Hi.
    assert (E : sum nf (fun k => D i k * df k) = b i).
    { unfold df. fold b.
      transitivity (sum nf (fun k => sum nf (fun l => D i k * (X k l * b l)))).
      - apply sum_ext. intros k _. now rewrite <- sum_scal_l.
      - rewrite sum_swap.
        transitivity (sum nf (fun l => (if (i =? l)%nat then 1 else 0) * b l)).
        + apply sum_ext. intros l Hl. rewrite <- (Inv i l Hi Hl), <- sum_scal_r.
          apply sum_ext. intros; ring.
        + rewrite (sum_single nf i) by
            (auto; intros k _ Hk; replace (i =? k)%nat with false
               by (symmetry; apply Nat.eqb_neq; congruence); ring).
          rewrite Nat.eqb_refl. ring. }
    rewrite E. unfold b. ring.
Qed.

(** ** The model's condensation and recovery *)
Section Element.
  Variable lu : lu_solver.
  Variable e : elem.
  Variables m v : list nat.
  Hypothesis Hp : partition_local e [] [] = Ok (m, v).
  Notation n := (e_vars e * e_nodes e)%nat.
  Variable jac : mat R.
  Hypothesis Hr : rows jac = n.
  Hypothesis Hc : cols jac = n.
  Hypothesis Hinv : void_invertible v jac.
  Hypothesis Hlu : lu_solves lu v jac.

  Lemma m_lt : forall k, In k m -> (k < n)%nat.
  Proof. intros k H. destruct (partition_perm e m v Hp) as [_ [_ [_ [I _]]]]. apply I in H. tauto. Qed.
  Lemma v_lt : forall k, In k v -> (k < n)%nat.
  Proof. intros k H. destruct (partition_perm e m v Hp) as [_ [_ [_ [_ I]]]]. apply I in H. tauto. Qed.

  (** the inverse of the void block, through whatever matrix [gather] returned *)
  Lemma void_inverse : forall ff, gather v v jac = Ok ff ->
    exists M, inverse lu ff = Ok M /\ rows M = length v /\ cols M = length v /\
      forall i j, (i < length v)%nat -> (j < length v)%nat ->
        sum (length v) (fun k => ent jac (nth i v 0%nat) (nth k v 0%nat) * ent M k j) =
        if (i =? j)%nat then 1 else 0.
  Proof.
    intros ff Hff.
    destruct (gather_ok v v jac) as [W [E [L1 [L2 A]]]];
      [intros; rewrite Hr; now apply v_lt|intros; rewrite Hc; now apply v_lt|].
    rewrite E in Hff. injection Hff as ->.
    destruct (inverse_ok lu ff) as [M [EM [M1 [M2 AM]]]]; [congruence|].
    exists M. split; auto. split; [congruence|]. split; [congruence|].
    intros i j Hi Hj.
    pose proof (Hlu Hinv ff (fun q => if (q =? j)%nat then 1 else 0) L1 L2 A i Hi) as S.
    cbv beta in S.
    transitivity (sum (length v) (fun k => ent ff i k * lu ff (fun q => if (q =? j)%nat then 1 else 0) k)).
    - apply sum_ext. intros k Hk. rewrite A, AM by (rewrite ?L1; auto). reflexivity.
    - exact S.
  Qed.

  Variable res : arr R.
  Hypothesis Hres : len res = n.

  Lemma factored_ok : exists M D r, inverse lu = inverse lu /\
    factored_residual_and_jacobian lu e jac res = Ok (m, D, r) /\
    rows M = length v /\ cols M = length v /\
    (exists ff, gather v v jac = Ok ff /\ inverse lu ff = Ok M) /\
    rows D = length m /\ cols D = length m /\ len r = length m /\
    (forall i j, (i < length m)%nat -> (j < length m)%nat -> ent D i j =
       ent jac (nth i m 0%nat) (nth j m 0%nat) -
       sum (length v) (fun k => sum (length v) (fun l =>
           ent jac (nth i m 0%nat) (nth l v 0%nat) * ent M l k) *
         ent jac (nth k v 0%nat) (nth j m 0%nat))) /\
    (forall i, (i < length m)%nat -> cell r i = cell res (nth i m 0%nat) -
       sum (length v) (fun k => sum (length v) (fun l =>
           ent jac (nth i m 0%nat) (nth l v 0%nat) * ent M l k) * cell res (nth k v 0%nat))).
  Proof.
    unfold factored_residual_and_jacobian, factored_jacobian. rewrite Hp. cbn [bind fst snd].
    assert (Mr : forall k, In k m -> (k < rows jac)%nat) by (intros; rewrite Hr; now apply m_lt).
    assert (Mc : forall k, In k m -> (k < cols jac)%nat) by (intros; rewrite Hc; now apply m_lt).
    assert (Vr : forall k, In k v -> (k < rows jac)%nat) by (intros; rewrite Hr; now apply v_lt).
    assert (Vc : forall k, In k v -> (k < cols jac)%nat) by (intros; rewrite Hc; now apply v_lt).
    destruct (gather_ok m m jac Mr Mc) as [uu [Euu [Ruu [Cuu Auu]]]].
    destruct (gather_ok m v jac Mr Vc) as [uf [Euf [Ruf [Cuf Auf]]]].
    destruct (gather_ok v m jac Vr Mc) as [fu [Efu [Rfu [Cfu Afu]]]].
    destruct (gather_ok v v jac Vr Vc) as [ff [Eff [Rff [Cff Aff]]]].
    destruct (void_inverse ff Eff) as [M [EM [RM [CM AM]]]].
    destruct (gather_vec_ok m res) as [ru [Eru [Lru Aru]]]; [intros; rewrite Hres; now apply m_lt|].
    destruct (gather_vec_ok v res) as [rf [Erf [Lrf Arf]]]; [intros; rewrite Hres; now apply v_lt|].
    rewrite Euu. cbn [bind]. rewrite Euf. cbn [bind]. rewrite Efu. cbn [bind]. rewrite Eff.
    cbn [bind]. rewrite EM. cbn [bind]. unfold mmul at 1. rewrite Cuf, RM, Nat.eqb_refl.
    cbn [assert_ bind]. unfold mmul at 1. cbn [rows cols ent]. rewrite CM, Rfu, Nat.eqb_refl.
    cbn [assert_ bind]. unfold msub at 1. cbn [rows cols ent].
    rewrite Ruu, Ruf, Cuu, Cfu, !Nat.eqb_refl. cbn [assert_ bind andb f_mat f_void f_uf f_ff f_uu].
    rewrite Eru. cbn [bind]. rewrite Erf. cbn [bind]. rewrite EM. cbn [bind].
    unfold mmul at 1. rewrite Cuf, RM, Nat.eqb_refl. cbn [assert_ bind].
    unfold mvec at 1. cbn [rows cols ent]. rewrite CM, Lrf, Nat.eqb_refl. cbn [assert_ bind].
    unfold vsub at 1. cbn [len cell]. rewrite Lru, Ruf, Nat.eqb_refl. cbn [assert_ bind].
    exists M. eexists _, _. split; auto. split; [reflexivity|]. split; auto. split; auto.
    split; [exists ff; auto|]. cbn [rows cols ent len cell]. split; auto. split; auto. split; auto.
    split.
    - intros i j Hi Hj. rewrite Auu by auto. f_equal. apply sum_ext. intros k Hk.
      rewrite Afu by auto. f_equal. apply sum_ext. intros l Hl. now rewrite Auf.
    - intros i Hi. rewrite Aru by auto. f_equal. apply sum_ext. intros k Hk.
      rewrite Arf by auto. f_equal. apply sum_ext. intros l Hl. now rewrite Auf.
  Qed.

  Variables sol dsol : arr R.
  Hypothesis Hsol : len sol = n.
  Hypothesis Hdsol : len dsol = n.

  Lemma vadd_loop : forall k (df : arr R), len df = length v -> (k <= length v)%nat ->
    exists w, loop k (fun i w => x <- get df i ;; vadd w (nth i v 0%nat) x) sol = Ok w /\
      len w = n /\
      (forall i, (i < k)%nat -> cell w (nth i v 0%nat) = cell sol (nth i v 0%nat) + cell df i) /\
      (forall j, (forall i, (i < k)%nat -> j <> nth i v 0%nat) -> cell w j = cell sol j).
  Proof.
    intros k df Ld. destruct (partition_perm e m v Hp) as [_ [_ [Nv _]]].
    induction k as [|k IH]; intro Hk; cbn [loop].
    - exists sol. repeat split; auto. intros; lia.
    - destruct IH as [w [E [L [A B]]]]; [lia|]. rewrite E. cbn [bind].
      rewrite get_ok by lia. cbn [bind].
      assert (Hn : (nth k v 0%nat < n)%nat) by (apply v_lt, nth_In; lia).
      rewrite vadd_ok by lia. eexists; split; [reflexivity|]. cbn [len cell]. split; auto. split.
      + intros i Hi. destruct (Nat.eq_dec i k) as [->|Ne].
        * rewrite upd_same, B; auto. intros j Hj K.
          apply (proj1 (NoDup_nth v 0%nat) Nv) in K; lia.
        * rewrite upd_other; [apply A; lia|]. intro K.
          apply (proj1 (NoDup_nth v 0%nat) Nv) in K; lia.
      + intros j Hj. rewrite upd_other by (apply Hj; lia). apply B. intros; apply Hj; lia.
  Qed.

  Lemma recover_ok : (0 < length m)%nat -> (0 < length v)%nat ->
    exists M w, (exists ff, gather v v jac = Ok ff /\ inverse lu ff = Ok M) /\
      recover lu e res jac sol dsol = Ok w /\ len w = n /\
      (forall j, ~ In j v -> cell w j = cell sol j) /\
      (forall i, (i < length v)%nat -> cell w (nth i v 0%nat) - cell sol (nth i v 0%nat) =
         sum (length v) (fun l => ent M i l * (- cell res (nth l v 0%nat) -
           sum (length m) (fun j => ent jac (nth l v 0%nat) (nth j m 0%nat) *
                                    cell dsol (nth j m 0%nat))))).
  Proof.
    intros Pm Pv. unfold recover. rewrite Hp. cbn [bind fst snd].
    rewrite (proj2 (Nat.ltb_lt _ _) Pm), (proj2 (Nat.ltb_lt _ _) Pv). cbn [assert_].
    assert (Mc : forall k, In k m -> (k < cols jac)%nat) by (intros; rewrite Hc; now apply m_lt).
    assert (Vr : forall k, In k v -> (k < rows jac)%nat) by (intros; rewrite Hr; now apply v_lt).
    assert (Vc : forall k, In k v -> (k < cols jac)%nat) by (intros; rewrite Hc; now apply v_lt).
    destruct (gather_ok v m jac Vr Mc) as [fu [Efu [Rfu [Cfu Afu]]]].
    destruct (gather_ok v v jac Vr Vc) as [ff [Eff [Rff [Cff Aff]]]].
    destruct (void_inverse ff Eff) as [M [EM [RM [CM AM]]]].
    destruct (gather_vec_ok m dsol) as [du [Edu [Ldu Adu]]]; [intros; rewrite Hdsol; now apply m_lt|].
    destruct (gather_vec_ok v res) as [rf [Erf [Lrf Arf]]]; [intros; rewrite Hres; now apply v_lt|].
    rewrite Efu. cbn [bind]. rewrite Eff. cbn [bind]. rewrite Erf. cbn [bind]. rewrite Edu.
    cbn [bind]. rewrite EM. cbn [bind]. unfold mvec at 1. rewrite Cfu, Ldu, Nat.eqb_refl.
    cbn [assert_ bind]. unfold vsub at 1. cbn [len cell]. rewrite Lrf, Rfu, Nat.eqb_refl.
    cbn [assert_ bind]. unfold mvec at 1. cbn [len cell]. rewrite CM, Nat.eqb_refl.
    cbn [assert_ bind]. rewrite RM.
    match goal with |- context [loop _ (fun i w => x <- get ?d i ;; _) _] => set (df := d) end.
    destruct (vadd_loop (length v) df) as [w [Ew [Lw [Aw Bw]]]]; auto.
    exists M, w. split; [exists ff; auto|]. split; [exact Ew|]. split; auto. split.
    - intros j Hj. apply Bw. intros i Hi K. apply Hj. subst j. apply nth_In; auto.
    - intros i Hi. rewrite Aw by auto. replace (_ + _ - _) with (cell df i) by ring.
      unfold df. cbn [cell]. apply sum_ext. intros l Hl. f_equal. rewrite Arf by auto.
      f_equal. apply sum_ext. intros j Hj. rewrite Afu, Adu by auto. reflexivity.
  Qed.
End Element.

(** ** Runs *)
Section Runs.
  Variable n : nat.
  Variable v : nat -> R.
  Hypothesis Hn : (0 < n)%nat.
  Open Scope nat_scope.

  Definition isneg (i : nat) : bool := rltb (v (i mod n)) 0.
  Definition start (s : nat) : bool := negb (isneg s) && isneg (s + n - 1).

  Lemma pos_dec : forall i, isneg i = false <-> (0 <= v (i mod n))%R.
  Proof. intro i. apply rltb_false. Qed.
  Lemma neg_dec : forall i, isneg i = true <-> (v (i mod n) < 0)%R.
  Proof. intro i. apply rltb_true. Qed.
  Lemma isneg_period : forall i, isneg (i + n) = isneg i.
  Proof.
    intro i. unfold isneg. replace (i + n) with (i + 1 * n) by lia.
    now rewrite Nat.mod_add by lia.
  Qed.

  (** length of the run starting at s: the first negative position within [fuel] *)
  Fixpoint first_neg (s fuel : nat) : nat :=
    match fuel with O => O | S f => if isneg s then O else S (first_neg (S s) f) end.

  Lemma first_neg_spec : forall fuel s, (exists k, k < fuel /\ isneg (s + k) = true) ->
    isneg (s + first_neg s fuel) = true /\ first_neg s fuel < fuel /\
    forall k, k < first_neg s fuel -> isneg (s + k) = false.
  Proof.
    induction fuel as [|f IH]; intros s [k [Hk K]]; [lia|]. simpl.
    destruct (isneg s) eqn:E.
    - rewrite Nat.add_0_r. split; auto. split; [lia|]. intros; lia.
    - destruct (IH (S s)) as [A [B C]].
      { destruct k; [rewrite Nat.add_0_r in K; congruence|]. exists k. split; [lia|].
        replace (S s + k) with (s + S k) by lia. auto. }
      split; [replace (s + S (first_neg (S s) f)) with (S s + first_neg (S s) f) by lia; auto|].
      split; [lia|]. intros j Hj. destruct j; [now rewrite Nat.add_0_r|].
      replace (s + S j) with (S s + j) by lia. apply C. lia.
  Qed.

  Definition starts : list nat := filter start (seq 0 n).
  Definition runs : list (nat * nat) := map (fun s => (s, first_neg s n)) starts.

  Lemma runs_spec : NoDup runs /\ forall s l, In (s, l) runs <-> is_run n v s l.
  Proof.
    split.
    - apply FinFun.Injective_map_NoDup; [intros a b H; congruence|].
      apply NoDup_filter, seq_NoDup.
    - assert (F : forall s, s < n -> start s = true ->
        isneg (s + first_neg s n) = true /\ 1 <= first_neg s n < n /\
        forall k, k < first_neg s n -> isneg (s + k) = false).
      { intros s Hs St. unfold start in St. apply andb_true_iff in St as [S1 S2].
        apply negb_true_iff in S1.
        destruct (first_neg_spec n s) as [A [B C]].
        { exists (n - 1). split; [lia|]. replace (s + (n - 1)) with (s + n - 1) by lia. auto. }
        split; auto. split; auto. split; auto.
        destruct (first_neg s n) eqn:E; [|lia]. rewrite Nat.add_0_r in A. congruence. }
      intros s l. unfold runs, starts. rewrite in_map_iff. split.
      + intros [s' [E Hs]]. injection E as <- <-. apply filter_In in Hs as [Hs St].
        apply in_seq in Hs. destruct (F s' ltac:(lia) St) as [A [B C]].
        unfold start in St. apply andb_true_iff in St as [_ S2].
        split; [lia|]. split; [exact B|]. split.
        * intros k Hk. apply pos_dec, C, Hk.
        * split; apply neg_dec; auto.
      + intros [Hs [Hl [P [N1 N2]]]]. exists s.
        assert (St : start s = true).
        { unfold start. apply andb_true_iff. split; [|now apply neg_dec].
          apply negb_true_iff, pos_dec. specialize (P 0 ltac:(lia)). now rewrite Nat.add_0_r in P. }
        split.
        * f_equal. destruct (F s Hs St) as [A [B C]].
          apply neg_dec in A. apply neg_dec in N2.
          destruct (lt_eq_lt_dec (first_neg s n) l) as [[H|H]|H]; auto.
          -- specialize (P _ H). lra.
          -- specialize (C _ H). congruence.
        * apply filter_In. split; auto. apply in_seq. lia.
  Qed.

  (** counting *)
  Definition b2n (b : bool) : nat := if b then 1 else 0.
  Fixpoint nsum (k : nat) (f : nat -> nat) : nat :=
    match k with O => 0 | S k => nsum k f + f k end.

  Lemma nsum_ext : forall k f g, (forall i, i < k -> f i = g i) -> nsum k f = nsum k g.
  Proof. induction k; intros f g H; simpl; auto. rewrite (IHk f g), (H k); auto. Qed.

  Lemma filter_count : forall f k, length (filter f (seq 0 k)) = nsum k (fun i => b2n (f i)).
  Proof.
    intros f k; induction k as [|k IH]; auto.
    rewrite seq_S, filter_app, app_length, IH. simpl. destruct (f k); simpl; lia.
  Qed.

  Definition change_at (i : nat) : nat :=
    b2n ((isneg i && negb (isneg (i + 1))) || (negb (isneg i) && isneg (i + 1))).
  Definition up_at (i : nat) : nat := b2n (isneg i && negb (isneg (i + 1))).

  Lemma changes_up : forall k, nsum k change_at + b2n (isneg 0) = 2 * nsum k up_at + b2n (isneg k).
  Proof.
    induction k as [|k IH]; [simpl; lia|]. cbn [nsum].
    unfold change_at at 2, up_at at 2. replace (S k) with (k + 1) by lia.
    destruct (isneg k), (isneg (k + 1)); cbn [andb orb negb b2n] in *; lia.
  Qed.

  Lemma nsum_shift : forall k f, nsum (S k) f = f 0 + nsum k (fun i => f (S i)).
  Proof. induction k as [|k IH]; intro f; [simpl; lia|]. cbn [nsum] in *. rewrite IH. lia. Qed.

  Lemma ups_starts : nsum n up_at = length starts.
  Proof.
    unfold starts. rewrite filter_count.
    assert (E : forall i, b2n (start (S i)) = up_at i).
    { intro i. unfold start, up_at. replace (S i + n - 1) with (i + n) by lia.
      rewrite isneg_period, andb_comm. now replace (S i) with (i + 1) by lia. }
    transitivity (nsum n (fun i => b2n (start (S i)))); [apply nsum_ext; intros; now rewrite E|].
    assert (P : start n = start 0).
    { unfold start. replace n with (0 + n) at 1 by lia. rewrite isneg_period.
      replace (n + n - 1) with ((0 + n - 1) + n) by lia. now rewrite isneg_period. }
    pose proof (nsum_shift n (fun i => b2n (start i))) as S1. cbn [nsum] in S1.
    rewrite P in S1. lia.
  Qed.

  Lemma count_changes : nsum n change_at = 2 * length runs.
  Proof.
    pose proof (changes_up n). rewrite ups_starts in H. unfold runs. rewrite map_length.
    replace (isneg n) with (isneg 0) in H; [lia|].
    replace n with (0 + n) by lia. now rewrite isneg_period.
  Qed.
End Runs.

Open Scope nat_scope.
Lemma nth_map_nat : forall (f : nat -> R) ns i, i < length ns ->
  nth i (map f ns) 0%R = f (nth i ns 0).
Proof.
  intros f ns i H. rewrite (nth_indep _ 0%R (f 0)) by now rewrite map_length. apply map_nth.
Qed.

Lemma rleb_negb : forall x, rleb 0 x = negb (rltb x 0).
Proof. intro x. unfold rleb, rltb. destruct (Rle_dec 0 x), (Rlt_dec x 0); auto; lra. Qed.

Lemma sign_changes_count : forall phi ns, ns <> [] ->
  sign_changes phi ns = nsum (length ns) (change_at (length ns) (fun i => phi (nth i ns 0))).
Proof.
  intros phi ns Hne. unfold sign_changes. set (n := length ns).
  assert (Hn : 0 < n) by (unfold n; destruct ns; [congruence|simpl; lia]).
  set (v := fun i => phi (nth i ns 0)).
  set (step := fun (s : R * nat) (i : nat) => _).
  assert (G : forall k, k <= n -> fold_left step (seq 0 k) (phi (nth 0 ns 0), 0) =
     (v (k mod n), nsum k (change_at n v))).
  { induction k as [|k IH]; intro Hk.
    - simpl. rewrite Nat.mod_0_l by lia. reflexivity.
    - rewrite seq_S, fold_left_app, IH by lia. cbn [fold_left nsum]. rewrite Nat.add_0_l.
      unfold step at 1. cbn [fst snd]. fold n.
      change (phi (nth ((k + 1) mod n) ns 0)) with (v ((k + 1) mod n)).
      replace (S k) with (k + 1) by lia. f_equal.
      set (N := nsum k (change_at n v)). unfold change_at, isneg.
      rewrite !rleb_negb.
      destruct (rltb (v (k mod n)) 0), (rltb (v ((k + 1) mod n)) 0);
        cbn [andb orb negb b2n]; lia. }
  rewrite G by lia. reflexivity.
Qed.
