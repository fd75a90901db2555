(** Lemmas for C28 (from the sweep), C67, C68. *)
From Coq Require Import Reals List Arith Bool Lra Lia Permutation Sorted.
From Verif Require Import Base BaseLemmas Flut_Model Flut_Spec Flut_Proofs Flut_Proofs2 Flut_Proofs3.
Import ListNotations.
Open Scope R_scope.

Section F.
  Variables (N n : nat) (analyze : R -> option fsol -> fsol) (vlo vhi : R) (s0 : fstate).
  Hypothesis Hor : good_oracle N analyze.
  Hypothesis Hn : (0 < n)%nat.
  Hypothesis Hlo : 0 <= vlo.
  Hypothesis Hd : tol < (vhi - vlo) / INR n.
  Hypothesis Hscan : scan_for_roots analyze vlo vhi n (mkF [] []) = Ok s0.
  Hypothesis Hst : forall i, (i < N)%nat -> retained (map snd (f_sols s0)) i -> g i (analyze vlo None) <= 0.

  Lemma range_pos : vlo < vhi.
  Proof.
    assert (0 < INR n) by (apply lt_0_INR; auto). assert (0 < (vhi - vlo) / INR n) by (unfold tol in Hd; lra).
    apply Rmult_lt_reg_r with (/ INR n); [apply Rinv_0_lt_compat; auto|]. unfold Rdiv in *. lra.
  Qed.
  Lemma scan_unfold : f_sols s0 = fst (sweep analyze vlo vhi n (S n)) /\ identify_crossover_points (f_sols s0) = Ok (f_xs s0).
  Proof.
    unfold scan_for_roots in Hscan. cbn [f_sols] in Hscan. rewrite sweep_loop in Hscan; [|apply range_pos|lia]. cbn [bind] in Hscan.
    destruct (identify_crossover_points _) eqn:E; cbn [bind] in Hscan; [|discriminate]. inversion Hscan; subst. auto.
  Qed.
  Lemma H1 : Forall (good_sol N) (map snd (f_sols s0)).
  Proof. destruct scan_unfold as (-> & _). now apply sweep_good. Qed.
  Lemma H2 : StronglySorted Rlt (map ref_val (map snd (f_sols s0))).
  Proof.
    destruct scan_unfold as (-> & _). destruct (sweep_good N analyze vlo vhi n (S n) Hor) as (_ & ->). apply seq_sorted; [apply range_pos|lia].
  Qed.
  Lemma H3 a b : consecutive (map snd (f_sols s0)) a b -> fast a b.
  Proof.
    intros Hc. apply consecutive_map in Hc. destruct Hc as (l1 & l2 & E). destruct scan_unfold as (Es & _). rewrite Es in E.
    destruct (sweep_good N analyze vlo vhi n (S n) Hor) as (_ & E'). rewrite E' in E. apply seq_consecutive in E. destruct E as (i & _ & Hi & Ea & Eb).
    right. rewrite Eb, V_val_step by lia.
    assert (vlo <= V_val vlo vhi n i).
    { assert (X := range_pos). destruct i; [unfold V_val; destruct (Nat.eqb_spec 0 n); [lia|simpl; lra]|].
      left. replace vlo with (V_val vlo vhi n 0) at 1 by (unfold V_val; destruct (Nat.eqb_spec 0 n); [lia|simpl; lra]). apply V_val_mono; auto; lia. }
    rewrite Rabs_right; [lra|]. unfold tol in *. lra.
  Qed.
  Lemma H4 : identify_crossover_points (f_sols s0) = Ok (f_xs s0).
  Proof. apply scan_unfold. Qed.
  Lemma sweep_head k : (0 < k)%nat -> exists t, map snd (fst (sweep analyze vlo vhi n k)) = analyze vlo None :: t.
  Proof.
    induction k as [|k IH]; [lia|]. intros _. destruct k as [|k].
    - simpl. replace (V_val vlo vhi n 0) with vlo by (unfold V_val; destruct (Nat.eqb_spec 0 n); [lia|simpl; lra]). eauto.
    - destruct (IH ltac:(lia)) as (t & E). cbn [sweep fst] in *. rewrite map_app, E. simpl. eauto.
  Qed.
  Lemma H5 s t i : map snd (f_sols s0) = s :: t -> (i < N)%nat -> retained (map snd (f_sols s0)) i -> g i s <= 0.
  Proof.
    intros E Hi Hr. assert (X := Hst i Hi Hr). destruct (sweep_head (S n) ltac:(lia)) as (t' & E').
    destruct scan_unfold as (Es & _). rewrite <- Es, E in E'. inversion E'; subst. exact X.
  Qed.
  Lemma calls_inv s s' : calls analyze s s' -> inv (f_xs s0) (f_xs s) -> inv (f_xs s0) (f_xs s').
  Proof.
    assert (Sg := xs0_sign _ N _ H1 H3 H4 H5).
    induction 1 as [|t it s b r s' s'' Ht E _ IH|t it s b r s' s'' Ht E _ IH]; auto; intros I; apply IH.
    - eapply (next_inv analyze N Hor _ Sg); eauto.
    - eapply (critical_inv analyze N Hor _ Sg); eauto.
  Qed.
  Lemma calls_low v s s' : calls analyze s s' -> inv (f_xs s0) (f_xs s) -> low v (f_xs s) -> low v (f_xs s').
  Proof.
    assert (Sg := xs0_sign _ N _ H1 H3 H4 H5).
    induction 1 as [|t it s b r s' s'' Ht E _ IH|t it s b r s' s'' Ht E _ IH]; auto; intros I L; apply IH.
    - eapply (next_inv analyze N Hor _ Sg); eauto.
    - eapply (next_low _ N _ H1 H3 H4 H5); eauto.
    - eapply (critical_inv analyze N Hor _ Sg); eauto.
    - eapply (critical_low _ N _ H1 H3 H4 H5); eauto.
  Qed.
End F.

(** ** C68: critical root of one solution *)
Lemma n_unstable_spec t l : n_unstable t l = length (filter (fun r => rle 0 (r_im r) && rle t (r_re r)) l).
Proof. induction l as [|r l IH]; simpl; auto. destruct (_ && _); simpl; now rewrite IH. Qed.

Definition best_g (l : list froot) (o : option froot) : Prop :=
  match o with
  | None => Forall (fun r => ~ upper r) l
  | Some q => In q l /\ upper q /\ forall r, In r l -> upper r -> r_re r <= r_re q
  end.
Definition best_u (t : R) (l : list froot) (o : option froot) : Prop :=
  match o with
  | None => Forall (fun r => ~ unstable t r) l
  | Some q => In q l /\ unstable t q /\ forall r, In r l -> unstable t r -> r_V q <= r_V r
  end.
Lemma crit_scan_spec t l : forall done u b, best_u t done u -> best_g done b ->
  exists u' b', best_u t (done ++ l) u' /\ best_g (done ++ l) b' /\
    crit_scan t l u b = match u' with Some r => Some r | None => b' end.
Proof.
  induction l as [|r l IH]; intros done u b Hu Hb.
  - exists u, b. rewrite app_nil_r. simpl. auto.
  - assert (G : forall u1 b1, best_u t (done ++ [r]) u1 -> best_g (done ++ [r]) b1 ->
       exists u' b', best_u t (done ++ r :: l) u' /\ best_g (done ++ r :: l) b' /\
         crit_scan t l u1 b1 = match u' with Some r => Some r | None => b' end).
    { intros u1 b1 A B. destruct (IH _ _ _ A B) as (u' & b' & C). rewrite <- app_assoc in C. eauto. }
    assert (Ku : ~ unstable t r -> best_u t (done ++ [r]) u).
    { intros H. destruct u as [q|]; simpl in *.
      - destruct Hu as (A & B & C). split; [apply in_or_app; auto|]. split; auto. intros r' Hr' Hun. apply in_app_or in Hr'.
        destruct Hr' as [|[<-|[]]]; auto. contradiction.
      - apply Forall_app; auto. }
    cbn [crit_scan]. destruct (rle_spec 0 (r_im r)) as [Him|Him].
    + cbv zeta. apply G.
      * destruct (rle_spec t (r_re r)) as [Ht|Ht], (rlt_spec 0 (r_V r)) as [HV|HV]; cbn [andb]; try (apply Ku; unfold unstable; tauto).
        assert (Un : unstable t r) by (unfold unstable, upper; auto). destruct u as [q|]; simpl in *.
        -- destruct Hu as (A & B & C). destruct (rle_spec (r_V r) (r_V q)).
           ++ split; [apply in_or_app; simpl; auto|]. split; auto. intros r' Hr' Hun. apply in_app_or in Hr'.
              destruct Hr' as [Hr'|[<-|[]]]; [|lra]. specialize (C r' Hr' Hun). lra.
           ++ split; [apply in_or_app; auto|]. split; auto. intros r' Hr' Hun. apply in_app_or in Hr'. destruct Hr' as [Hr'|[<-|[]]]; [auto|lra].
        -- split; [apply in_or_app; simpl; auto|]. split; auto. intros r' Hr' Hun. apply in_app_or in Hr'.
           rewrite Forall_forall in Hu. destruct Hr' as [Hr'|[<-|[]]]; [|lra]. exfalso. eapply Hu; eauto.
      * destruct b as [q|]; simpl in *.
        -- destruct Hb as (A & B & C). destruct (rle_spec (r_re q) (r_re r)).
           ++ split; [apply in_or_app; simpl; auto|]. split; auto. intros r' Hr' Hun. apply in_app_or in Hr'.
              destruct Hr' as [Hr'|[<-|[]]]; [|lra]. specialize (C r' Hr' Hun). lra.
           ++ split; [apply in_or_app; auto|]. split; auto. intros r' Hr' Hun. apply in_app_or in Hr'. destruct Hr' as [Hr'|[<-|[]]]; [auto|lra].
        -- split; [apply in_or_app; simpl; auto|]. split; auto. intros r' Hr' Hun. apply in_app_or in Hr'.
           rewrite Forall_forall in Hb. destruct Hr' as [Hr'|[<-|[]]]; [|lra]. exfalso. eapply Hb; eauto.
    + apply G.
      * apply Ku. unfold unstable, upper. tauto.
      * destruct b as [q|]; simpl in *.
        -- destruct Hb as (A & B & C). split; [apply in_or_app; auto|]. split; auto. intros r' Hr' Hun. apply in_app_or in Hr'.
           destruct Hr' as [|[<-|[]]]; auto. contradiction.
        -- apply Forall_app; auto.
Qed.

(** ** C67 *)
Lemma damped_inside b : lower_g b <= 0 -> 1/10000 <= upper_g b -> lower_V b < upper_V b -> lower_V b < damped_V b <= upper_V b.
Proof.
  intros H1 H2 H3. unfold damped_V.
  set (f := (upper_g b - 1/10000) / (upper_g b - lower_g b)).
  assert (Hf : 0 <= f < 2).
  { unfold f. split; [apply Rmult_le_pos; [lra|left; apply Rinv_0_lt_compat; lra]|].
    apply (Rmult_lt_reg_r (upper_g b - lower_g b)); [lra|]. field_simplify; lra. }
  replace (1/2 * (upper_V b - lower_V b) / (upper_g b - lower_g b) * (1/10000 - upper_g b)) with (- (1/2) * (upper_V b - lower_V b) * f) by (unfold f; field; lra).
  nra.
Qed.
Lemma refine_nt_sound analyze t k : forall lV uV lr ur sol m root m',
  refine_nt analyze t k lV uV lr ur sol m = Ok (true, Some root, m') ->
  0 < r_re root <= t /\ exists V s, In (V, s) m' /\ get_critical_root t s = Some root.
Proof.
  induction k as [|k IH]; intros lV uV lr ur sol m root m'; cbn [refine_nt]; [discriminate|]. cbv zeta.
  destruct (Req_EM_T _ _); [discriminate|]. destruct (sinsert _ _ m) as [m1|] eqn:E1; cbn [bind]; [|discriminate].
  destruct (crit t _) as [r|] eqn:Ec; [|discriminate].
  destruct (rlt_spec 0 (r_re r)), (rle_spec (r_re r) t); cbn [andb]; try (destruct (rlt (r_re r) 0); apply IH).
  intros E; inversion E; subst. split; [auto|]. eexists _, _. split; [|exact Ec].
  apply sinsert_in in E1. apply (Permutation_in _ (Permutation_sym E1)). left. reflexivity.
Qed.
Lemma march_total analyze t n lo hi : (0 < n)%nat -> lo < hi ->
  forall k fuel lsol m, (k < n)%nat -> (n - k <= fuel)%nat -> Forall (fun e => fst e <= lo + INR k * ((hi - lo) / INR n)) m ->
  exists r, march analyze t fuel ((hi - lo) / INR n) hi (lo + INR k * ((hi - lo) / INR n)) lsol m = Ok r.
Proof.
  intros Hn Hlt. assert (HN : 0 < INR n) by (apply lt_0_INR; auto).
  assert (Hd : 0 < (hi - lo) / INR n) by (apply Rdiv_lt_0_compat; lra). set (d := (hi - lo) / INR n) in *.
  intros k fuel. revert k. induction fuel as [|fuel IH]; intros k lsol m Hk Hf Hm; [lia|]. cbn [march]. cbv zeta.
  rewrite sinsert_last.
  2:{ eapply Forall_impl; [|exact Hm]. simpl; intros; lra. }
  cbn [bind]. destruct (negb _); cbn [orb]; [eauto|].
  destruct (rle_spec hi (lo + INR k * d + d)) as [|Hh]; [eauto|].
  assert (S k < n)%nat.
  { destruct (le_lt_dec n (S k)); auto. exfalso. apply Hh.
    assert (E : INR n = INR k + 1) by (rewrite <- S_INR; f_equal; lia).
    assert (X : INR n * d = hi - lo) by (unfold d; field; lra). rewrite E in X. lra. }
  replace (lo + INR k * d + d) with (lo + INR (S k) * d) by (rewrite S_INR; ring).
  apply IH; [lia|lia|]. rewrite S_INR. apply Forall_app. split.
  - eapply Forall_impl; [|exact Hm]. simpl; intros; lra.
  - constructor; [simpl; lra|constructor].
Qed.

(** velocities stored by the refinement and by the march *)
Lemma damped_within b : lower_g b <= 0 -> 1/10000 <= upper_g b -> lower_V b <= upper_V b -> lower_V b <= damped_V b <= upper_V b.
Proof.
  intros H1 H2 [H3|H3]; [destruct (damped_inside b H1 H2 H3); lra|].
  unfold damped_V. rewrite H3. replace (upper_V b - upper_V b) with 0 by ring. unfold Rdiv. lra.
Qed.
Lemma refine_nt_keys analyze t : 1/10000 <= t ->
  (forall V p r, get_critical_root t (analyze V p) = Some r -> r_re r <> 0) ->
  forall k lV uV lr ur sol m b r m', lV <= uV -> r_re lr <= 0 -> 1/10000 <= r_re ur ->
  refine_nt analyze t k lV uV lr ur sol m = Ok (b, r, m') ->
  forall V s, In (V, s) m' -> In (V, s) m \/ lV <= V <= uV.
Proof.
  intros Ht Hz. induction k as [|k IH]; intros lV uV lr ur sol m b r m' HV Hl Hu; cbn [refine_nt].
  - intros E; inversion E; subst. auto.
  - cbv zeta. destruct (Req_EM_T _ _); [discriminate|].
    set (bb := mkB lV (r_re lr) uV (r_re ur)) in *.
    assert (D : lV <= damped_V bb <= uV) by (apply (damped_within bb); auto).
    destruct (sinsert _ _ m) as [m1|] eqn:E1; cbn [bind]; [|discriminate].
    apply sinsert_in in E1.
    assert (G : forall V s, In (V, s) m1 -> In (V, s) m \/ lV <= V <= uV).
    { intros V s H. apply (Permutation_in _ E1) in H. destruct H as [H|H]; [inversion H; subst; auto|auto]. }
    destruct (crit t _) as [q|] eqn:Ec; [|discriminate]. pose proof (Hz _ _ _ Ec) as Hq.
    destruct (rlt_spec 0 (r_re q)) as [Q1|Q1]; cbn [andb].
    + destruct (rle_spec (r_re q) t) as [Q2|Q2].
      * intros E; inversion E; subst. exact G.
      * destruct (rlt_spec (r_re q) 0); [lra|]. intros E V s H.
        assert (H1 : lV <= damped_V bb) by lra. assert (H2 : 1/10000 <= r_re q) by lra.
        specialize (IH _ _ _ _ _ _ _ _ _ H1 Hl H2 E V s H). clear H. rename IH into H.
        destruct H as [H|H]; [auto|right; lra].
    + destruct (rlt_spec (r_re q) 0); [|lra]. intros E V s H.
      assert (H1 : damped_V bb <= uV) by lra. assert (H2 : r_re q <= 0) by lra.
      specialize (IH _ _ _ _ _ _ _ _ _ H1 H2 Hu E V s H). clear H. rename IH into H.
      destruct H as [H|H]; [auto|right; lra].
Qed.
Lemma march_keys analyze t n lo hi : (0 < n)%nat -> lo < hi ->
  forall fuel k lsol m lV ls uV us m', (k < n)%nat -> n_unstable t (sroots lsol) = 0%nat ->
  (exists p, lsol = analyze (lo + INR k * ((hi - lo) / INR n)) p) ->
  (forall V s, In (V, s) m -> lo <= V <= hi) ->
  march analyze t fuel ((hi - lo) / INR n) hi (lo + INR k * ((hi - lo) / INR n)) lsol m = Ok (lV, ls, uV, us, m') ->
  exists i, (i < n)%nat /\ lV = lo + INR i * ((hi - lo) / INR n) /\ uV = lo + INR (S i) * ((hi - lo) / INR n) /\
    lo <= lV <= uV /\ uV <= hi /\ n_unstable t (sroots ls) = 0%nat /\
    (exists p, ls = analyze lV p) /\ (exists p, us = analyze uV p) /\ (forall V s, In (V, s) m' -> lo <= V <= hi).
Proof.
  intros Hn Hlt. assert (HN : 0 < INR n) by (apply lt_0_INR; auto).
  assert (Hd : 0 < (hi - lo) / INR n) by (apply Rdiv_lt_0_compat; lra).
  assert (Hnd : INR n * ((hi - lo) / INR n) = hi - lo) by (field; lra). set (d := (hi - lo) / INR n) in *.
  induction fuel as [|fuel IH]; intros k lsol m lV ls uV us m' Hk Hs Hp Hm; [discriminate|]. cbn [march]. cbv zeta.
  assert (B1 : INR (S k) * d <= INR n * d) by (apply Rmult_le_compat_r; [lra|apply le_INR; lia]).
  assert (B0 : 0 <= INR k * d) by (apply Rmult_le_pos; [apply pos_INR|lra]).
  replace (lo + INR k * d + d) with (lo + INR (S k) * d) by (rewrite S_INR; ring).
  assert (B2 : INR (S k) * d = INR k * d + d) by (rewrite S_INR; ring).
  remember (lo + INR (S k) * d) as up eqn:Hup.
  destruct (sinsert _ _ m) as [m1|] eqn:E1; cbn [bind]; [|discriminate]. apply sinsert_in in E1.
  assert (G : forall V s, In (V, s) m1 -> lo <= V <= hi).
  { intros V s H. apply (Permutation_in _ E1) in H. destruct H as [H|H]; [|eauto].
    apply (f_equal fst) in H. cbn [fst] in H. rewrite <- H. lra. }
  destruct (negb (Nat.eqb (n_unstable t (sroots (analyze up (Some lsol)))) 0)) eqn:En; cbn [orb].
  - intros E. injection E as <- <- <- <- <-. exists k. repeat match goal with |- _ /\ _ => split end; eauto; lra.
  - destruct (rle_spec hi up) as [Hh|Hh].
    + intros E. injection E as <- <- <- <- <-. exists k. repeat match goal with |- _ /\ _ => split end; eauto; lra.
    + apply negb_false_iff, Nat.eqb_eq in En. rewrite Hup in *. intros E. eapply (IH (S k)) in E; eauto.
      destruct (Nat.eq_dec (S k) n) as [e|]; [|lia]. rewrite e in Hh. lra.
Qed.
Lemma n_unstable_pos t l : n_unstable t l <> 0%nat -> exists r, In r l /\ 0 <= r_im r /\ t <= r_re r.
Proof.
  induction l as [|r l IH]; cbn [n_unstable]; [congruence|].
  destruct (rle_spec 0 (r_im r)), (rle_spec t (r_re r)); cbn [andb]; intros H; try (exists r; simpl; tauto);
  destruct IH as (q & A & B); try (exists q; simpl; tauto); lia.
Qed.
Lemma n_unstable_zero t l : n_unstable t l = 0%nat -> forall r, In r l -> 0 <= r_im r -> r_re r < t.
Proof.
  induction l as [|r l IH]; cbn [n_unstable]; intros H q Hq Him; [destruct Hq|].
  destruct (rle_spec 0 (r_im r)), (rle_spec t (r_re r)); cbn [andb] in H; try lia; destruct Hq as [<-|Hq]; auto; lra.
Qed.
Lemma crit_of_unstable t s q : get_critical_root t s = Some q ->
  (n_unstable t (sroots s) <> 0%nat -> t <= r_re q) /\ (n_unstable t (sroots s) = 0%nat -> r_re q < t).
Proof.
  unfold get_critical_root. destruct (crit_scan_spec t (sroots s) [] None None) as (u & b & Hu & Hb & ->); [constructor|constructor|].
  cbn [app] in *. destruct u as [w|]; simpl in Hu.
  - intros E; inversion E; subst. destruct Hu as (A & B & C). destruct B as (U1 & U2 & U3).
    split; [tauto|]. intros Z. eapply n_unstable_zero; eauto.
  - intros ->. simpl in Hb. destruct Hb as (A & B & C). split.
    + intros P. apply n_unstable_pos in P. destruct P as (r & P1 & P2 & P3). specialize (C r P1 P2). lra.
    + intros Z. eapply n_unstable_zero; eauto.
Qed.
