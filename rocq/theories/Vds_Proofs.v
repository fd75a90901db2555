From Coq Require Import List Arith Bool Reals Lra Lia Permutation.
From Verif Require Import Base BaseLemmas Sens_Model Sens_Spec Sens_Proofs Sens_Proofs2 Vds_Model Vds_Spec.
Import ListNotations.
Open Scope R_scope.

Lemma over_void (s : vec) l : forall a k, fold_left (fun a k => vset a k (s k)) l a k = if in_dec Nat.eq_dec k l then s k else a k.
Proof.
  induction l as [|x l IH]; intros a k; [reflexivity|]. cbn [fold_left]. rewrite IH. unfold vset.
  destruct (in_dec Nat.eq_dec k l) as [I|I], (in_dec Nat.eq_dec k (x :: l)) as [J|J]; auto.
  - exfalso. apply J. now right.
  - destruct J as [->|J]; [now rewrite Nat.eqb_refl|contradiction].
  - destruct (Nat.eqb_spec k x) as [->|]; auto. exfalso. apply J. now left.
Qed.
Lemma vlocal_ok e X (st : vstore) s : st (ve_id e) = Some s -> exists sol, vlocal e X st = Ok sol /\ forall k, sol k = full_state e X s k.
Proof.
  intros E. unfold vlocal. rewrite E. eexists. split; [reflexivity|]. intros k. rewrite over_void. unfold full_state. reflexivity.
Qed.
(** updating entries of a list without repetitions *)
Lemma bump (g : nat -> R) v : NoDup v -> forall n, (n <= length v)%nat -> forall (a : vec),
  (forall k, ~ In k (firstn n v) -> fold_left (fun a i => vset a (nth i v O) (a (nth i v O) + g i)) (seq 0 n) a k = a k) /\
  (forall i, (i < n)%nat -> fold_left (fun a i => vset a (nth i v O) (a (nth i v O) + g i)) (seq 0 n) a (nth i v O) = a (nth i v O) + g i).
Proof.
  intros N. induction n as [|n IH]; intros H a; [split; [reflexivity|lia]|]. destruct (IH ltac:(lia) a) as (A & B). rewrite seq_S, fold_left_app. cbn [fold_left Nat.add].
  assert (Fr : ~ In (nth n v O) (firstn n v)).
  { intros I. apply In_nth with (d := O) in I. destruct I as (j & Hj & E). rewrite firstn_length in Hj. assert (Hj2 : (j < n)%nat) by lia.
    assert (E2 : nth j (firstn n v) O = nth j v O).
    { rewrite <- (firstn_skipn n v) at 2. rewrite app_nth1; auto. rewrite firstn_length. lia. }
    rewrite E2 in E. apply (proj1 (NoDup_nth v O) N) in E; lia. }
  split.
  - intros k Hk. unfold vset at 1. destruct (Nat.eqb_spec k (nth n v O)) as [->|Z].
    + exfalso. apply Hk. rewrite <- (firstn_skipn n v) at 1. rewrite app_nth2; rewrite firstn_length; [|lia].
      replace (n - Nat.min n (length v))%nat with 0%nat by lia. destruct (skipn n v) as [|x t] eqn:S.
      { assert (length (skipn n v) = 0)%nat by now rewrite S. rewrite skipn_length in H0. lia. }
      assert (E : firstn (Datatypes.S n) v = firstn n v ++ [x]).
      { rewrite <- (firstn_skipn n v) at 1. rewrite S. rewrite firstn_app, firstn_firstn, firstn_length. replace (Nat.min (Datatypes.S n) n) with n by lia.
        replace (Datatypes.S n - Nat.min n (length v))%nat with 1%nat by lia. reflexivity. }
      rewrite E. apply in_or_app. right. now left.
    + apply A. intros I. apply Hk. clear -I. revert n I. induction v as [|x v IHv]; intros n I; [destruct n; destruct I|]. destruct n; [destruct I|].
      destruct I as [->|I]; [now left|right]. apply IHv. exact I.
  - intros i Hi. unfold vset at 1. destruct (Nat.eqb_spec (nth i v O) (nth n v O)) as [E|E].
    + assert (i = n) by (apply (proj1 (NoDup_nth v O) N); auto; lia). subst. now rewrite A by exact Fr.
    + apply B. destruct (Nat.eq_dec i n) as [->|]; [contradiction|lia].
Qed.
Lemma bump_all (g : nat -> R) v (a : vec) : NoDup v ->
  (forall k, ~ In k v -> fold_left (fun a i => vset a (nth i v O) (a (nth i v O) + g i)) (seq 0 (length v)) a k = a k) /\
  (forall i, (i < length v)%nat -> fold_left (fun a i => vset a (nth i v O) (a (nth i v O) + g i)) (seq 0 (length v)) a (nth i v O) = a (nth i v O) + g i).
Proof. intros N. destruct (bump g v N (length v) (le_n _) a) as (A & B). split; auto. intros k Hk. apply A. now rewrite firstn_all. Qed.
Lemma total_nth (g : nat -> R) (l : list nat) : total g l = sum (length l) (fun i => g (nth i l O)).
Proof.
  induction l as [|x l IH] using rev_ind; [reflexivity|]. rewrite total_app, app_length, Nat.add_comm. cbn [length Nat.add]. rewrite IH.
  cbn [sum]. rewrite app_nth2, Nat.sub_diag by lia. cbn [nth]. f_equal; [|unfold total; cbn; ring].
  apply sum_ext. intros i Hi. now rewrite app_nth1.
Qed.
Lemma split_sum e g : split_ok e -> sum (length (ve_dofs e)) g =
  sum (length (ve_mat e)) (fun j => g (nth j (ve_mat e) O)) + sum (length (ve_void e)) (fun j => g (nth j (ve_void e) O)).
Proof.
  intros (P & _). rewrite <- !total_nth, <- total_app, (total_perm _ _ _ P), total_nth, seq_length. apply sum_ext. intros i Hi. now rewrite seq_nth.
Qed.
Lemma split_void e : split_ok e -> NoDup (ve_void e) /\ forall j, In j (ve_mat e) -> ~ In j (ve_void e).
Proof.
  intros (P & _). assert (N : NoDup (ve_mat e ++ ve_void e)) by (eapply Permutation_NoDup; [apply Permutation_sym, P|apply seq_NoDup]).
  clear P. induction (ve_mat e) as [|x l IH]; [split; auto|]. cbn in N. inversion N; subst. destruct (IH H2) as (A & B). split; auto.
  intros j [->|I]; auto. intros C. apply H1. apply in_or_app. auto.
Qed.
Section Vds.
Variable inv : nat -> matrix -> matrix.
Lemma void_eq e res jac dsol i : inverts inv e jac -> (i < length (ve_void e))%nat ->
  sum (length (ve_void e)) (fun j => jac (nth i (ve_void e) O) (nth j (ve_void e) O) * void_step inv e res jac dsol j) =
  - res (nth i (ve_void e) O) - sum (length (ve_mat e)) (fun j => jac (nth i (ve_void e) O) (nth j (ve_mat e) O) * dsol (nth j (ve_mat e) O)).
Proof.
  intros H Hi. unfold void_step. set (nf := length (ve_void e)) in *.
  set (M := fun i j => jac (nth i (ve_void e) O) (nth j (ve_void e) O)).
  transitivity (sum nf (fun a => sum nf (fun j => M i j * inv nf M j a) * (- res (nth a (ve_void e) O) - sum (length (ve_mat e)) (fun j => jac (nth a (ve_void e) O) (nth j (ve_mat e) O) * dsol (nth j (ve_mat e) O))))).
  - transitivity (sum nf (fun j => sum nf (fun a => M i j * (inv nf M j a * (- res (nth a (ve_void e) O) - sum (length (ve_mat e)) (fun j => jac (nth a (ve_void e) O) (nth j (ve_mat e) O) * dsol (nth j (ve_mat e) O))))))).
    + apply sum_ext. intros j Hj. rewrite sum_scal_l. reflexivity.
    + rewrite sum_swap. apply sum_ext. intros a Ha. rewrite <- sum_scal_r. apply sum_ext. intros j Hj. ring.
  - rewrite (sum_single nf i); auto.
    + assert (Q : sum nf (fun j => M i j * inv nf M j i) = 1) by (etransitivity; [exact (H i i Hi Hi)|now rewrite Nat.eqb_refl]). rewrite Q. ring.
    + intros a Ha Z. assert (Q : sum nf (fun j => M i j * inv nf M j a) = 0) by (etransitivity; [exact (H i a Hi Ha)|destruct (Nat.eqb_spec i a); [congruence|reflexivity]]). rewrite Q. ring.
Qed.
Lemma elem_ok e X dX (st : vstore) s : good_elem inv e -> ve_fac e = true -> st (ve_id e) = Some s ->
  exists new, void_elem inv X dX (Ok st) e = @Ok vstore (fun id => if (id =? ve_id e)%nat then Some new else st id) /\
    linearised e X dX s new /\ forall k, ~ In k (ve_void e) -> new k = X (nth k (ve_dofs e) O).
Proof.
  intros (Sp & Ex & Fr & In_) F E. destruct (vlocal_ok e X st s E) as (sol & L & Hs). destruct (split_void e Sp) as (N & Dj). destruct Sp as (P & Nm & Nv).
  unfold void_elem. cbn [bind]. rewrite F. cbn [negb]. rewrite L. cbn [bind].
  assert (A1 : (0 <? length (ve_mat e))%nat = true) by (apply Nat.ltb_lt; destruct (ve_mat e); [contradiction|cbn; lia]).
  assert (A2 : (0 <? length (ve_void e))%nat = true) by (apply Nat.ltb_lt; destruct (ve_void e); [contradiction|cbn; lia]).
  rewrite A1, A2. cbn [assert_]. eexists. split; [reflexivity|].
  set (res := fun k => ve_frac e * ve_res e sol k). set (jac := fun k l => ve_frac e * ve_jac e sol k l).
  destruct (bump_all (void_step inv e res jac (gather (ve_dofs e) dX)) (ve_void e) sol N) as (B1 & B2). split.
  - intros i Hi. cbv zeta. destruct (Ex sol (full_state e X s) Hs) as (Er & Ej). rewrite <- Er.
    pose proof (void_eq e res jac (gather (ve_dofs e) dX) i (In_ sol) Hi) as V.
    assert (Sum2 : sum (length (ve_void e)) (fun j => ve_jac e (full_state e X s) (nth i (ve_void e) O) (nth j (ve_void e) O) *
       (fold_left (fun a i => vset a (nth i (ve_void e) O) (a (nth i (ve_void e) O) + void_step inv e res jac (gather (ve_dofs e) dX) i)) (seq 0 (length (ve_void e))) sol (nth j (ve_void e) O) - s (nth j (ve_void e) O)))
      = sum (length (ve_void e)) (fun j => ve_jac e sol (nth i (ve_void e) O) (nth j (ve_void e) O) * void_step inv e res jac (gather (ve_dofs e) dX) j)).
    { apply sum_ext. intros j Hj. rewrite B2 by auto. rewrite <- Ej, Hs. unfold full_state.
      destruct (in_dec Nat.eq_dec (nth j (ve_void e) O) (ve_void e)) as [_|C]; [f_equal; ring|exfalso; apply C, nth_In; exact Hj]. }
    rewrite Sum2. rewrite (sum_ext (length (ve_mat e)) _ (fun j => ve_jac e sol (nth i (ve_void e) O) (nth j (ve_mat e) O) * dX (nth (nth j (ve_mat e) O) (ve_dofs e) O)))
      by (intros j Hj; now rewrite <- Ej).
    apply (Rmult_eq_reg_l (ve_frac e)); auto. rewrite !Rmult_plus_distr_l, Rmult_0_r, <- !sum_scal_l.
    assert (V1 : sum (length (ve_void e)) (fun j => ve_frac e * (ve_jac e sol (nth i (ve_void e) O) (nth j (ve_void e) O) * void_step inv e res jac (gather (ve_dofs e) dX) j)) =
                 sum (length (ve_void e)) (fun j => jac (nth i (ve_void e) O) (nth j (ve_void e) O) * void_step inv e res jac (gather (ve_dofs e) dX) j))
      by (apply sum_ext; intros j Hj; unfold jac; ring).
    assert (V2 : sum (length (ve_mat e)) (fun j => ve_frac e * (ve_jac e sol (nth i (ve_void e) O) (nth j (ve_mat e) O) * dX (nth (nth j (ve_mat e) O) (ve_dofs e) O))) =
                 sum (length (ve_mat e)) (fun j => jac (nth i (ve_void e) O) (nth j (ve_mat e) O) * gather (ve_dofs e) dX (nth j (ve_mat e) O)))
      by (apply sum_ext; intros j Hj; unfold jac, gather, dof; ring).
    rewrite V1, V2, V. unfold res. ring.
  - intros k Hk. rewrite B1 by auto. rewrite Hs. unfold full_state. destruct (in_dec Nat.eq_dec k (ve_void e)); [contradiction|reflexivity].
Qed.
Lemma update_ok es : forall X dX st, stored es st -> (forall e, In e es -> ve_fac e = true -> good_elem inv e) ->
  exists st', update_void inv es X dX st = Ok st' /\
    (forall e, In e es -> ve_fac e = true -> exists s new, st (ve_id e) = Some s /\ st' (ve_id e) = Some new /\ linearised e X dX s new) /\
    (forall id, (forall e, In e es -> ve_fac e = true -> ve_id e <> id) -> st' id = st id).
Proof.
  induction es as [|e es IH]; intros X dX st (N & S) G.
  - exists st. split; [reflexivity|]. split; [intros e []|reflexivity].
  - inversion N as [|? ? Nn N']; subst. unfold update_void. cbn [fold_left]. destruct (ve_fac e) eqn:F.
    + destruct (st (ve_id e)) as [s|] eqn:Es; [|exfalso; apply (S e (or_introl eq_refl) F); exact Es].
      destruct (elem_ok e X dX st s (G e (or_introl eq_refl) F) F Es) as (new & E & L & _). rewrite E.
      destruct (IH X dX (fun id => if (id =? ve_id e)%nat then Some new else st id)) as (st' & E' & A & B).
      { split; auto. intros x Ix Fx. destruct (Nat.eqb_spec (ve_id x) (ve_id e)) as [C|C]; [discriminate|]. apply S; auto. now right. }
      { intros x Ix. apply G. now right. }
      exists st'. split; [exact E'|]. assert (Own : st' (ve_id e) = Some new).
      { rewrite B; [now rewrite Nat.eqb_refl|]. intros x Ix Fx C. apply Nn. rewrite <- C. now apply in_map. }
      split.
      * intros x [<-|Ix] Fx; [exists s, new; auto|]. destruct (A x Ix Fx) as (s1 & n1 & Q1 & Q2 & Q3). exists s1, n1. split; [|auto].
        destruct (Nat.eqb_spec (ve_id x) (ve_id e)) as [C|C]; auto. exfalso. apply Nn. rewrite <- C. now apply in_map.
      * intros id H. rewrite B by (intros x Ix; apply H; now right). destruct (Nat.eqb_spec id (ve_id e)) as [->|]; auto.
        exfalso. exact (H e (or_introl eq_refl) F eq_refl).
    + assert (E : void_elem inv X dX (Ok st) e = Ok st) by (unfold void_elem; cbn [bind]; now rewrite F). rewrite E.
      destruct (IH X dX st) as (st' & E' & A & B).
      { split; auto. intros x Ix. apply S. now right. }
      { intros x Ix. apply G. now right. }
      exists st'. split; [exact E'|]. split.
      * intros x [<-|Ix] Fx; [congruence|]. now apply A.
      * intros id H. apply B. intros x Ix. apply H. now right.
Qed.
(** ** the solve *)
Lemma steps_app es b l : forall its l' s, steps inv es b its (l ++ l') s = (r <- steps inv es b its l s ;; steps inv es b (its + length l) l' r).
Proof.
  induction l as [|(lam, Y) l IH]; intros its l' s; [cbn; now rewrite Nat.add_0_r|]. cbn [app steps length].
  destruct (monitor inv es b (S its) Y _) as [s'|f]; cbn [bind]; [|reflexivity]. rewrite IH. now rewrite Nat.add_succ_r.
Qed.
(** after every step the iterate is remembered, the store is complete, and the last step was the Newton step of the void *)
Lemma solve_ok es l : (forall e, In e es -> ve_fac e = true -> good_elem inv e) -> forall X0 st, stored es st ->
  exists s, solve inv es true l X0 st = Ok s /\ mo_old s = Some (mo_X s) /\ stored es (mo_st s) /\
    (forall id, (forall e, In e es -> ve_fac e = true -> ve_id e <> id) -> mo_st s id = st id).
Proof.
  intros G X0 st S. induction l as [|(lam, Y) l IH] using rev_ind.
  - eexists. split; [reflexivity|]. cbn. auto.
  - destruct IH as (s & E & O & Ss & K). unfold solve in *. cbn [monitor negb bind] in *. rewrite steps_app. rewrite E. cbn [bind steps].
    cbn [monitor negb Nat.add mo_old mo_X mo_st]. rewrite O.
    destruct (update_ok es (mo_X s) (fun d => -1 * Y d) (mo_st s) Ss G) as (st' & -> & A & B). cbn [bind]. eexists. split; [reflexivity|]. cbn [mo_old mo_X mo_st].
    split; auto. split.
    + split; [apply Ss|]. intros e Ie Fe C. destruct (A e Ie Fe) as (s1 & n1 & _ & Q & _). congruence.
    + intros id H. rewrite B by auto. now apply K.
Qed.
Lemma solve_last es l lam Y : (forall e, In e es -> ve_fac e = true -> good_elem inv e) -> forall X0 st, stored es st ->
  exists s s', solve inv es true l X0 st = Ok s /\ solve inv es true (l ++ [(lam, Y)]) X0 st = Ok s' /\
    (forall d, mo_X s' d = mo_X s d - lam * Y d) /\
    forall e, In e es -> ve_fac e = true -> exists a b, mo_st s (ve_id e) = Some a /\ mo_st s' (ve_id e) = Some b /\ linearised e (mo_X s) (fun d => - Y d) a b.
Proof.
  intros G X0 st S. destruct (solve_ok es l G X0 st S) as (s & E & O & Ss & _). unfold solve in *. cbn [monitor negb bind] in *. rewrite steps_app, E. cbn [bind steps].
  cbn [monitor negb Nat.add mo_old mo_X mo_st]. rewrite O.
  destruct (update_ok es (mo_X s) (fun d => -1 * Y d) (mo_st s) Ss G) as (st' & -> & A & _). cbn [bind]. eexists s, _. split; [reflexivity|]. split; [reflexivity|].
  cbn [mo_X mo_st]. split; [reflexivity|]. intros e Ie Fe. destruct (A e Ie Fe) as (a & b & Q1 & Q2 & L). exists a, b. split; auto. split; auto.
  intros i Hi. specialize (L i Hi). cbv zeta in *. rewrite <- L. f_equal. f_equal. apply sum_ext. intros j Hj. ring.
Qed.
(** a linear element *)
Lemma linear_residual e K b X X' s s' lam Y : split_ok e -> linear_elem e K b -> linearised e X (fun d => - Y d) s s' -> (forall d, X' d = X d - lam * Y d) ->
  forall i, (i < length (ve_void e))%nat -> ve_res e (full_state e X' s') (nth i (ve_void e) O) =
    (1 - lam) * sum (length (ve_mat e)) (fun j => K (nth i (ve_void e) O) (nth j (ve_mat e) O) * Y (nth (nth j (ve_mat e) O) (ve_dofs e) O)).
Proof.
  intros Sp Li L HX i Hi. destruct (split_void e Sp) as (N & Dj). specialize (L i Hi). cbv zeta in L. set (vi := nth i (ve_void e) O) in *.
  destruct (Li (full_state e X s)) as (R1 & J1). destruct (Li (full_state e X' s')) as (R2 & _). rewrite R1 in L. rewrite R2.
  rewrite (split_sum e (fun j => K vi j * full_state e X s j) Sp) in L. rewrite (split_sum e (fun j => K vi j * full_state e X' s' j) Sp).
  assert (Fm : forall (Z u : vec) j, (j < length (ve_mat e))%nat -> full_state e Z u (nth j (ve_mat e) O) = Z (nth (nth j (ve_mat e) O) (ve_dofs e) O)).
  { intros Z u j Hj. unfold full_state. destruct (in_dec Nat.eq_dec (nth j (ve_mat e) O) (ve_void e)) as [C|]; auto. exfalso. exact (Dj _ (nth_In _ _ Hj) C). }
  assert (Fv : forall (Z u : vec) j, (j < length (ve_void e))%nat -> full_state e Z u (nth j (ve_void e) O) = u (nth j (ve_void e) O)).
  { intros Z u j Hj. unfold full_state. destruct (in_dec Nat.eq_dec (nth j (ve_void e) O) (ve_void e)) as [|C]; auto. exfalso. apply C, nth_In, Hj. }
  rewrite (sum_ext (length (ve_mat e)) (fun j => K vi (nth j (ve_mat e) O) * full_state e X' s' (nth j (ve_mat e) O))
    (fun j => K vi (nth j (ve_mat e) O) * full_state e X s (nth j (ve_mat e) O) + - lam * (K vi (nth j (ve_mat e) O) * Y (nth (nth j (ve_mat e) O) (ve_dofs e) O)))).
  2:{ intros j Hj. rewrite !Fm by auto. rewrite HX. ring. }
  rewrite (sum_ext (length (ve_void e)) (fun j => K vi (nth j (ve_void e) O) * full_state e X' s' (nth j (ve_void e) O))
    (fun j => K vi (nth j (ve_void e) O) * full_state e X s (nth j (ve_void e) O) + K vi (nth j (ve_void e) O) * (s' (nth j (ve_void e) O) - s (nth j (ve_void e) O)))).
  2:{ intros j Hj. rewrite !Fv by auto. ring. }
  rewrite (sum_ext (length (ve_mat e)) (fun j => ve_jac e (full_state e X s) vi (nth j (ve_mat e) O) * - Y (nth (nth j (ve_mat e) O) (ve_dofs e) O))
    (fun j => -1 * (K vi (nth j (ve_mat e) O) * Y (nth (nth j (ve_mat e) O) (ve_dofs e) O)))) in L by (intros j Hj; rewrite J1; ring).
  rewrite (sum_ext (length (ve_void e)) (fun j => ve_jac e (full_state e X s) vi (nth j (ve_void e) O) * (s' (nth j (ve_void e) O) - s (nth j (ve_void e) O)))
    (fun j => K vi (nth j (ve_void e) O) * (s' (nth j (ve_void e) O) - s (nth j (ve_void e) O)))) in L by (intros j Hj; now rewrite J1).
  rewrite !sum_plus, !sum_scal_l in *. lra.
Qed.
End Vds.
