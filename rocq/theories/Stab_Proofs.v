From Coq Require Import Reals List Arith Lia Lra Bool FunctionalExtensionality.
From Verif Require Import Base BaseLemmas Stab_Model Stab_Spec.
Import ListNotations.
Open Scope R_scope.

Section P.
  Variable c : sparams.
  Variables mass jac : nat -> R -> matrix.
  Variable force : nat -> R -> vec.
  Variable slv : matrix -> vec -> vec.
  Variable ampl : matrix -> matrix -> vec -> vec -> R.
  Hypothesis Hdt : p_dt c <> 0.
  Variables (i0 : nat) (t : R) (x0 : vec).

  Let MM := mean_mass c mass i0 t.
  Let JJ := int_jac c jac i0 t.
  Let FF := int_force c force i0 t.
  Let LL := lhs c mass jac i0 t.
  Let RR := rhs c mass force i0 t x0.
  Let XX k := slv (LL k) (RR k).
  Let M0 k : matrix := fun a b => MM k a b - (1 - p_beta c) * JJ k a b.
  Let AA k := ampl (M0 k) (LL k) (RR k) (mul (p_n c) (MM k) (XX k)).

  (** state in front of the (k+1)-st trial *)
  Definition before (k : nat) (x1 : vec) : sstate :=
    mkS t (t + INR (S k) * p_dt c) i0 (S (i0 + k)) (if Nat.eqb k 0 then mzero else MM k) (JJ k) (FF k) x0 x1.

  Lemma trial_before k x1 : trial c mass jac force slv ampl (before k x1) =
    (mkS t (t + INR (S k) * p_dt c) i0 (S (i0 + k)) (MM (S k)) (JJ (S k)) (FF (S k)) x0 (XX (S k)), AA (S k)).
  Proof.
    assert (HM : addm (p_dt c / (t + INR (S k) * p_dt c - t)) (mass (S (i0 + k)) (t + INR (S k) * p_dt c))
        (scalem ((t + INR (S k) * p_dt c - t - p_dt c) / (t + INR (S k) * p_dt c - t))
           (if Nat.eqb k 0 then mzero else MM k)) = MM (S k)).
    { extensionality a; extensionality b. unfold addm, scalem.
      assert (HS : INR (S k) <> 0) by (apply not_0_INR; lia).
      replace (t + INR (S k) * p_dt c - t) with (INR (S k) * p_dt c) by ring.
      replace (p_dt c / (INR (S k) * p_dt c)) with (1 / INR (S k)) by (field; split; auto).
      replace ((INR (S k) * p_dt c - p_dt c) / (INR (S k) * p_dt c))
        with (INR k / INR (S k)) by (rewrite S_INR in *; field; split; auto).
      unfold MM, mean_mass. cbn [sum]. unfold at_step.
      destruct k as [|k].
      - unfold mzero. simpl. field.
      - replace (Nat.eqb (S k) 0) with false by reflexivity.
        assert (INR (S k) <> 0) by (apply not_0_INR; lia). field. split; auto. }
    assert (HJ : addm (p_dt c) (jac (S (i0 + k)) (t + INR (S k) * p_dt c)) (JJ k) = JJ (S k)).
    { extensionality a; extensionality b. unfold addm, JJ, int_jac. cbn [sum]. unfold at_step. ring. }
    assert (HF : addv (p_dt c) (scalev (-1) (force (S (i0 + k)) (t + INR (S k) * p_dt c))) (FF k) = FF (S k)).
    { extensionality a. unfold addv, scalev, FF, int_force. cbn [sum]. unfold at_step. ring. }
    unfold trial, before. cbn [s_t0 s_time s_index0 s_index1 s_Mavg s_Jint s_fint s_dsol0 s_dsol1].
    rewrite HM, HJ, HF.
    assert (HL : addm (p_beta c) (JJ (S k)) (addm 1 (MM (S k)) mzero) = LL (S k)).
    { extensionality a; extensionality b. unfold addm, mzero, LL, lhs. fold MM JJ. ring. }
    assert (H0 : addm (-(1 - p_beta c)) (JJ (S k)) (addm 1 (MM (S k)) mzero) = M0 (S k)).
    { extensionality a; extensionality b. unfold addm, mzero, M0. ring. }
    assert (HR : addv 1 (FF (S k)) (mul (p_n c) (MM (S k)) x0) = RR (S k)).
    { extensionality a. unfold addv, RR, rhs, mul. fold MM FF. ring. }
    rewrite HL, H0, HR. reflexivity.
  Qed.

  Definition accepted k : Prop := AA k <= p_max_amp c.
  Definition stops k : Prop := accepted k \/ (p_max_index c < i0 + k)%nat.

  Definition result (k : nat) (x0' x1' : vec) : sstate :=
    mkS t (t + INR k * p_dt c) i0 (i0 + k) (MM k) (JJ k) (FF k) x0' x1'.

  Lemma iterate_before fuel : forall k x1 s',
    iterate c mass jac force slv ampl fuel (before k x1) = Ok s' ->
    exists m, (k < m)%nat /\ (forall j, (k < j < m)%nat -> ~ stops j) /\ stops m /\
      ((accepted m /\ s' = result m (XX m) (XX m)) \/ (~ accepted m /\ s' = result m x0 vzero)).
  Proof.
    induction fuel as [|f IH]; intros k x1 s'; [discriminate|].
    cbn [iterate]. rewrite trial_before. cbn [s_t0 s_time s_index0 s_index1 s_Mavg s_Jint s_fint s_dsol0 s_dsol1].
    destruct (Rle_dec (AA (S k)) (p_max_amp c)) as [H|H].
    - intros E; injection E as E. exists (S k). split; [lia|]. split; [intros; lia|].
      split; [left; exact H|]. left; split; [exact H|]. rewrite <- E. unfold result.
      f_equal; [lia|]. extensionality a. unfold addv, vzero; ring.
    - destruct (Nat.ltb_spec (p_max_index c) (S (i0 + k))) as [Hi|Hi].
      + intros E; injection E as E. exists (S k). split; [lia|]. split; [intros; lia|].
        split; [right; lia|]. right; split; [exact H|]. rewrite <- E. unfold result. f_equal. lia.
      + intros E. specialize (IH (S k) (XX (S k)) s').
        assert (EB : mkS t (t + INR (S k) * p_dt c + p_dt c) i0 (S (S (i0 + k))) (MM (S k)) (JJ (S k)) (FF (S k)) x0 (XX (S k))
                 = before (S k) (XX (S k))).
        { unfold before. rewrite (S_INR (S k)). f_equal; [ring|lia]. }
        rewrite EB in E. destruct (IH E) as (m & H1 & H2 & H3 & H4).
        exists m. split; [lia|]. split; [|auto].
        intros j Hj. destruct (Nat.eq_dec j (S k)) as [->|].
        * intros [Ha|Hb]; [exact (H Ha)|lia].
        * apply H2; lia.
  Qed.

  Lemma iterate_total : forall d k x1 fuel, (p_max_index c < i0 + k + d)%nat -> (d < fuel)%nat ->
    exists s', iterate c mass jac force slv ampl fuel (before k x1) = Ok s'.
  Proof.
    induction d as [|d IH]; intros k x1 fuel Hd Hf; (destruct fuel as [|f]; [lia|]);
      cbn [iterate]; rewrite trial_before; cbn [s_t0 s_time s_index0 s_index1 s_Mavg s_Jint s_fint s_dsol0 s_dsol1];
      (destruct (Rle_dec (AA (S k)) (p_max_amp c)) as [H|H]; [eexists; reflexivity|]).
    - destruct (Nat.ltb_spec (p_max_index c) (S (i0 + k))); [eexists; reflexivity|lia].
    - destruct (Nat.ltb_spec (p_max_index c) (S (i0 + k))); [eexists; reflexivity|].
      replace (mkS t (t + INR (S k) * p_dt c + p_dt c) i0 (S (S (i0 + k))) (MM (S k)) (JJ (S k)) (FF (S k)) x0 (XX (S k)))
        with (before (S k) (XX (S k))).
      + apply IH; lia.
      + unfold before. rewrite (S_INR (S k)). f_equal; [ring|lia].
  Qed.
End P.

Lemma solve_start c mass jac force slv ampl fuel s :
  0 < p_max_amp c -> (0 < p_max_index c)%nat ->
  sensitivity_solve c mass jac force slv ampl fuel s =
  iterate c mass jac force slv ampl fuel
    (before c mass jac force (s_index1 s) (s_time s) (s_dsol0 s) 0 (s_dsol1 s)).
Proof.
  intros H1 H2. unfold sensitivity_solve, assert_. destruct (Rlt_dec 0 (p_max_amp c)); [|lra].
  apply Nat.ltb_lt in H2. rewrite H2. f_equal. unfold before.
  f_equal; simpl; try lia; try ring.
  - extensionality a; extensionality b. unfold int_jac, mzero; simpl; ring.
  - extensionality a. unfold int_force, vzero; simpl; ring.
Qed.

Lemma qloop (n : nat) (q0 t00 : R) (dt : R) (g : nat -> R) (tm : nat -> R) :
  loop n (fun k qt => Ok (fst qt + g k * dt, tm k)) (q0, t00) =
  Ok (q0 + dt * sum n g, match n with O => t00 | S k => tm k end).
Proof.
  induction n as [|n IH]; simpl; [f_equal; f_equal; ring|].
  rewrite IH; simpl. f_equal. f_equal. ring.
Qed.
