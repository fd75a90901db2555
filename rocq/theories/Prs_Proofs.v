From Coq Require Import List Arith Bool Reals Lra Lia.
From Verif Require Import Base RBool Flui_Model Flui_Spec Flui_Props Prs_Model Prs_Spec.
Import ListNotations.
Open Scope R_scope.

Lemma psteps_app l : forall f l', psteps f (l ++ l') = (g <- psteps f l ;; psteps g l').
Proof. induction l as [|c l IH]; intros f l'; [reflexivity|]. cbn. destruct (pstep f c); cbn; auto. Qed.
Lemma settings l : forall f, psteps pf0 l = Ok f ->
  pf_cp f = last_cp l /\ pf_ref f = last_ref l /\ pf_sol f = last_sol l /\ pf_dsol f = last_dsol l.
Proof.
  induction l as [|c l IH] using rev_ind; intros f E; [cbn in E; inversion E; auto|]. rewrite psteps_app in E.
  destruct (psteps pf0 l) as [g|] eqn:G; [|discriminate]. cbn [bind] in E. destruct (IH g eq_refl) as (A & B & C & D).
  unfold last_cp, last_ref, last_sol, last_dsol. rewrite !fold_left_app. cbn [fold_left].
  fold (last_cp l) (last_ref l) (last_sol l) (last_dsol l). cbn [psteps] in E.
  destruct c; cbn in E; [inversion E; subst; cbn; auto| |inversion E; subst; cbn; auto].
  unfold assert_ in E. destruct (negb (pf_cp g)); [|discriminate]. inversion E; subst; cbn; auto.
Qed.
Lemma prim_pressure d cp cv visc U : U 0%nat <> 0 -> cv <> 0 -> p_p (prim_of d cp cv visc U) = gas_pressure d cp cv U.
Proof.
  intros A B. unfold gas_pressure. cbn [p_p prim_of]. destruct (Nat.ltb 1 d), (Nat.ltb 2 d); field; auto.
Qed.
Lemma physical d cp cv visc U : 0 < cv < cp -> 0 < U 0%nat -> 0 < gas_pressure d cp cv U ->
  prim_init d cp cv visc U = Ok (prim_of d cp cv visc U).
Proof.
  intros G Hr Hp. pose proof (prim_pressure d cp cv visc U ltac:(lra) ltac:(lra)) as E. unfold prim_init.
  set (s := prim_of d cp cv visc U) in *.
  assert (Pp : p_p s = (cp - cv) * p_T s * U 0%nat) by reflexivity.
  assert (T : 0 < p_T s).
  { rewrite <- E, Pp in Hp. assert (X : 0 < p_T s * ((cp - cv) * U 0%nat)) by nra.
    assert (Y : 0 < (cp - cv) * U 0%nat) by (apply Rmult_lt_0_compat; lra). destruct (Rle_or_lt (p_T s) 0); auto. nra. }
  assert (Rh : p_rho s = U 0%nat) by reflexivity. rewrite Rh.
  assert (G2 : 0 < cp / cv * (cp - cv) * p_T s).
  { apply Rmult_lt_0_compat; auto. apply Rmult_lt_0_compat; [|lra]. apply Rdiv_lt_0_compat; lra. }
  assert (B1 : reqb (U 0%nat) 0 = false) by (destruct (reqb (U 0%nat) 0) eqn:Q; auto; apply reqb_true in Q; lra).
  assert (B2 : reqb cv 0 = false) by (destruct (reqb cv 0) eqn:Q; auto; apply reqb_true in Q; lra).
  assert (B3 : rleb (cp / cv * (cp - cv) * p_T s) 0 = false) by (destruct (rleb (cp / cv * (cp - cv) * p_T s) 0) eqn:Q; auto; apply rleb_true in Q; lra).
  assert (B4 : rltb (U 0%nat) 0 = false) by (apply rltb_false; lra).
  assert (B5 : rleb (p_p s) 0 = false) by (destruct (rleb (p_p s) 0) eqn:Q; auto; apply rleb_true in Q; lra).
  assert (B6 : rltb (p_T s) 0 = false) by (apply rltb_false; lra).
  rewrite B1, B2, B3, B4, B5, B6. now rewrite andb_false_r.
Qed.
Lemma dp_deriv d cp cv visc U t0 V : valid_dim d -> 0 < cv < cp -> follows U t0 V -> 0 < U t0 0%nat -> 0 < gas_pressure d cp cv (U t0) ->
  derivable_pt_lim (fun t => gas_pressure d cp cv (U t)) t0 (d_p (pert_of d cp cv visc (prim_of d cp cv visc (U t0)) V)).
Proof.
  intros D G F A B. destruct (perturbation_is_derivative_partial d cp cv visc U t0 V _ D G F (physical d cp cv visc (U t0) G A B)) as (_ & _ & _ & _ & _ & _ & _ & H & _).
  assert (C : forall eps, 0 < eps -> exists del, 0 < del /\ forall h, Rabs h < del -> Rabs (U (t0 + h) 0%nat - U t0 0%nat) < eps).
  { intros eps He. pose proof (derivable_continuous_pt (fun t => U t 0%nat) t0 (exist _ _ (F 0%nat))) as K.
    destruct (K eps He) as (al & Hal & Q). exists al. split; [exact Hal|]. intros h Hh. destruct (Req_dec h 0) as [->|Z].
    - rewrite Rplus_0_r. unfold Rminus. rewrite Rplus_opp_r, Rabs_R0. exact He.
    - apply (Q (t0 + h)). split; [split; [exact I|lra]|]. cbn. unfold R_dist. now replace (t0 + h - t0) with h by ring. }
  intros eps He. destruct (H eps He) as (del & Hd). destruct (C (U t0 0%nat) A) as (de & Hde & K).
  assert (Pm : 0 < Rmin del de) by (apply Rmin_pos; [apply cond_pos|exact Hde]). exists (mkposreal _ Pm). cbn. intros h Hh Hs.
  assert (Z : U (t0 + h) 0%nat <> 0).
  { specialize (K h (Rlt_le_trans _ _ _ Hs (Rmin_r _ _))). apply Rabs_def2 in K. lra. }
  specialize (Hd h Hh (Rlt_le_trans _ _ _ Hs (Rmin_l _ _))). rewrite <- (prim_pressure d cp cv visc (U (t0 + h)) Z ltac:(lra)), <- (prim_pressure d cp cv visc (U t0) ltac:(lra) ltac:(lra)). exact Hd.
Qed.

(** ** integrated pressure *)
Lemma osteps_app l : forall f l', osteps f (l ++ l') = (g <- osteps f l ;; osteps g l').
Proof. induction l as [|c l IH]; intros f l'; [reflexivity|]. cbn. destruct (ostep f c); cbn; auto. Qed.
Lemma len_size v : len3 v = size3 v.
Proof. destruct v as ((a & b) & c). unfold len3, size3, dot3. f_equal. ring. Qed.
Lemma size_zero v : size3 v = 0 <-> v = (0, 0, 0).
Proof.
  destruct v as ((a & b) & c). unfold size3. split.
  - intros H. apply sqrt_eq_0 in H; [|nra]. assert (a = 0) by nra. assert (b = 0) by nra. assert (c = 0) by nra. congruence.
  - intros H. inversion H; subst. replace (0 ^ 2 + 0 ^ 2 + 0 ^ 2) with 0 by ring. apply sqrt_0.
Qed.
Definition unit_of (n : v3) : v3 := let '(a, b, c) := n in (a / size3 n, b / size3 n, c / size3 n).
Lemma div3_ok n u : div3 n (len3 n) = Ok u -> size3 n <> 0 /\ u = unit_of n.
Proof.
  rewrite len_size. unfold div3. destruct (reqb (size3 n) 0) eqn:E; [discriminate|]. destruct n as ((a & b) & c). intros H. inversion H.
  split; auto. intros Z. rewrite Z in E. assert (X : reqb 0 0 = true) by now apply reqb_true. congruence.
Qed.
Lemma dot_unit n v : size3 n <> 0 -> dot3 v (unit_of n) = along n v.
Proof. intros Z. destruct n as ((p & q) & r), v as ((a & b) & c). unfold along, unit_of, dot3. field. exact Z. Qed.
Definition tidy (o : pmode) (n : v3) (l : list ocall) (w : pout) : Prop :=
  po_mode w = last_mode o l /\ (last_mode o l = UnitVec -> size3 (last_dir n l) <> 0 /\ po_n w = unit_of (last_dir n l)) /\
  po_load w = last_load l /\ (forall f, option_map snd (find (fun q => (fst q =? f)%nat) (po_sens w)) = last_sens f l) /\ po_dX w = last_deriv l.
Lemma find_fst f (l : list (nat * v3)) g v : find (fun q => (fst q =? f)%nat) l = Some (g, v) -> g = f.
Proof. intros H. apply find_some in H. destruct H as (_ & H). now apply Nat.eqb_eq in H. Qed.
Lemma none_absent f (l : list (nat * v3)) : existsb (fun q => (fst q =? f)%nat) l = false -> find (fun q => (fst q =? f)%nat) l = None.
Proof. induction l as [|q l IH]; auto. cbn. destruct (fst q =? f)%nat; [discriminate|auto]. Qed.
Lemma osteps_tidy o n w : pout_new o n = Ok w -> forall l w', osteps w l = Ok w' -> tidy o n l w'.
Proof.
  intros E l. induction l as [|c l IH] using rev_ind; intros w' H.
  - cbn in H. inversion H; subst. unfold pout_new in E. destruct o.
    + inversion E; subst. repeat split; cbn; auto; discriminate.
    + destruct (div3 n (len3 n)) as [u|] eqn:D; [|discriminate]. cbn in E. inversion E; subst. destruct (div3_ok _ _ D) as (Z & ->).
      repeat split; cbn; auto.
  - rewrite osteps_app in H. destruct (osteps w l) as [g|] eqn:G; [|discriminate]. cbn [bind osteps] in H.
    destruct (ostep g c) as [g'|] eqn:S; [|discriminate]. cbn in H. inversion H; subst. clear H. destruct (IH g eq_refl) as (A & B & C & D & F).
    unfold tidy, last_mode, last_dir, last_load, last_sens, last_deriv. setoid_rewrite fold_left_app. cbn [fold_left].
    fold (last_mode o l) (last_dir n l) (last_load l) (last_deriv l). fold (last_sens).
    assert (D' : forall f, option_map snd (find (fun q => (fst q =? f)%nat) (po_sens g)) =
      fold_left (fun a c => match c with SetSens g v => if (g =? f)%nat then Some v else a | OClear => None | _ => a end) l None) by exact D.
    destruct c as [m [k|]|v|f v|m k|]; cbn in S.
    + destruct m; [inversion S; subst; cbn; repeat split; auto; discriminate|].
      destruct (div3 k (len3 k)) as [u|] eqn:Q; [|discriminate]. cbn in S. inversion S; subst. destruct (div3_ok _ _ Q) as (Z & ->). cbn. repeat split; auto.
    + destruct m; [inversion S; subst; cbn; repeat split; auto; discriminate|discriminate].
    + inversion S; subst; cbn; repeat split; auto; apply B; auto.
    + unfold assert_ in S. destruct (existsb (fun q => (fst q =? f)%nat) (po_sens g)) eqn:X; cbn in S; [discriminate|]. inversion S; subst; cbn -[Nat.eqb].
      split; [auto|]. split; [auto|]. split; [auto|]. split; [|auto]. intros h. destruct (f =? h)%nat eqn:Y; auto.
    + inversion S; subst; cbn; repeat split; auto; apply B; auto.
    + inversion S; subst; cbn. rewrite C. repeat split; auto; apply B; auto.
Qed.
Lemma d_along n L t0 d : moves L t0 d -> size3 n <> 0 -> derivable_pt_lim (fun t => along n (L t)) t0 (along n d).
Proof.
  intros M Z. destruct n as ((p & q) & r). set (s := size3 (p, q, r)) in *.
  assert (E : forall v, along (p, q, r) v = comp3 0 v * (p / s) + comp3 1 v * (q / s) + comp3 2 v * (r / s)).
  { intros ((a & b) & c). unfold along. fold s. cbn. field. exact Z. }
  rewrite E. pose proof (M 0%nat). pose proof (M 1%nat). pose proof (M 2%nat).
  assert (K : forall i c, derivable_pt_lim (fun t => comp3 i (L t) * c) t0 (comp3 i d * c)).
  { intros i c. replace (comp3 i d * c) with (comp3 i d * c + comp3 i (L t0) * 0) by ring. apply (derivable_pt_lim_mult (fun t => comp3 i (L t)) (fun _ => c)); [apply M|apply derivable_pt_lim_const]. }
  assert (Q : derivable_pt_lim (fun t => comp3 0 (L t) * (p / s) + comp3 1 (L t) * (q / s) + comp3 2 (L t) * (r / s)) t0
    (comp3 0 d * (p / s) + comp3 1 d * (q / s) + comp3 2 d * (r / s))).
  { apply (derivable_pt_lim_plus (fun t => comp3 0 (L t) * (p / s) + comp3 1 (L t) * (q / s))); [|apply K].
    apply (derivable_pt_lim_plus (fun t => comp3 0 (L t) * (p / s))); apply K. }
  intros eps He. destruct (Q eps He) as (de & Hd). exists de. intros h Hh Hs. rewrite !E. apply Hd; auto.
Qed.
Lemma d_size L t0 d v : moves L t0 d -> L t0 = v -> size3 v <> 0 -> derivable_pt_lim (fun t => size3 (L t)) t0 (dot3 v d / size3 v).
Proof.
  intros M E Z. assert (S : forall u, size3 u = sqrt (comp3 0 u * comp3 0 u + comp3 1 u * comp3 1 u + comp3 2 u * comp3 2 u)).
  { intros ((a & b) & c). unfold size3. cbn. f_equal. ring. }
  assert (K : forall i, derivable_pt_lim (fun t => comp3 i (L t) * comp3 i (L t)) t0 (comp3 i d * comp3 i v + comp3 i v * comp3 i d)).
  { intros i. rewrite <- E. apply (derivable_pt_lim_mult (fun t => comp3 i (L t)) (fun t => comp3 i (L t))); apply M. }
  assert (Q : derivable_pt_lim (fun t => comp3 0 (L t) * comp3 0 (L t) + comp3 1 (L t) * comp3 1 (L t) + comp3 2 (L t) * comp3 2 (L t)) t0
    ((comp3 0 d * comp3 0 v + comp3 0 v * comp3 0 d) + (comp3 1 d * comp3 1 v + comp3 1 v * comp3 1 d) + (comp3 2 d * comp3 2 v + comp3 2 v * comp3 2 d))).
  { apply (derivable_pt_lim_plus (fun t => comp3 0 (L t) * comp3 0 (L t) + comp3 1 (L t) * comp3 1 (L t))); [|apply K].
    apply (derivable_pt_lim_plus (fun t => comp3 0 (L t) * comp3 0 (L t))); apply K. }
  assert (P : 0 < comp3 0 v * comp3 0 v + comp3 1 v * comp3 1 v + comp3 2 v * comp3 2 v).
  { destruct (Rle_or_lt (comp3 0 v * comp3 0 v + comp3 1 v * comp3 1 v + comp3 2 v * comp3 2 v) 0); auto. exfalso. apply Z. rewrite S.
    replace (comp3 0 v * comp3 0 v + comp3 1 v * comp3 1 v + comp3 2 v * comp3 2 v) with 0 by nra. apply sqrt_0. }
  assert (D : derivable_pt_lim (fun t => sqrt (comp3 0 (L t) * comp3 0 (L t) + comp3 1 (L t) * comp3 1 (L t) + comp3 2 (L t) * comp3 2 (L t))) t0 (dot3 v d / size3 v)).
  { replace (dot3 v d / size3 v) with (/ (2 * size3 v) * ((comp3 0 d * comp3 0 v + comp3 0 v * comp3 0 d) + (comp3 1 d * comp3 1 v + comp3 1 v * comp3 1 d) + (comp3 2 d * comp3 2 v + comp3 2 v * comp3 2 d))).
    2:{ destruct v as ((a & b) & c), d as ((a' & b') & c'). cbn [comp3 dot3]. field. exact Z. }
    apply (derivable_pt_lim_comp (fun t => comp3 0 (L t) * comp3 0 (L t) + comp3 1 (L t) * comp3 1 (L t) + comp3 2 (L t) * comp3 2 (L t)) sqrt); [exact Q|].
    rewrite E, S. apply derivable_pt_lim_sqrt. exact P. }
  intros eps He. destruct (D eps He) as (de & Hd). exists de. intros h Hh Hs. rewrite !(S (L _)). apply Hd; auto.
Qed.
