(** The search for the mode depends only on the signs of the nodal values relative to the
    tolerance: finite case analysis. *)
From Coq Require Import List Arith NArith ZArith Lia Bool Reals Lra Psatz.
From Verif Require Import Base BaseLemmas RBool Filt_Model Isec_Model Isec_Spec Isec_Proofs.
Import ListNotations.
Open Scope nat_scope.

Inductive cls := Zr | Tie | Ps | Ng.
Definition cl (x : R) : cls :=
  if rltb (Rabs x) tol then Zr else if rltb tol (Rabs x) then (if rltb 0%R x then Ps else Ng) else Tie.
Definition isZ c := match c with Zr => true | _ => false end.
Definition isP c := match c with Ps => true | _ => false end.
Definition isN c := match c with Ng => true | _ => false end.
Definition opp a b := match a, b with Ps, Ng | Ng, Ps => true | _, _ => false end.
Definition onl c := match c with Zr | Tie => true | _ => false end.

Lemma cl_Zr x : cl x = Zr <-> (Rabs x < tol)%R.
Proof. unfold cl. rb; split; intros; try discriminate; auto; lra. Qed.
Lemma cl_Ps x : cl x = Ps <-> (tol < x)%R.
Proof.
  pose proof tol_pos. unfold cl. rb; split; intros; try discriminate; auto;
  unfold Rabs in *; destruct (Rcase_abs x); lra.
Qed.
Lemma cl_Ng x : cl x = Ng <-> (x < - tol)%R.
Proof.
  pose proof tol_pos. unfold cl. rb; split; intros; try discriminate; auto;
  unfold Rabs in *; destruct (Rcase_abs x); lra.
Qed.
Lemma cl_Tie x : cl x = Tie <-> Rabs x = tol.
Proof. unfold cl. rb; split; intros; try discriminate; auto; lra. Qed.
Lemma cl_pos x : rltb 0%R x = true -> onl (cl x) = false -> cl x = Ps.
Proof.
  intros H N. apply rltb_true in H. destruct (cl x) eqn:E; try discriminate; auto.
  apply cl_Ng in E. pose proof tol_pos. lra.
Qed.
Lemma pos_cl x : onl (cl x) = false -> rltb 0%R x = isP (cl x).
Proof.
  intros H. pose proof tol_pos. destruct (cl x) eqn:E; try discriminate.
  - apply cl_Ps in E. cbn. apply rltb_true. lra.
  - apply cl_Ng in E. cbn. apply rltb_false. lra.
Qed.
Lemma node_hit_cl v i : node_hit v i = isZ (cl (v i)).
Proof. unfold node_hit, cl. rb; auto. Qed.
Lemma on_ls_cl x : on_ls x = onl (cl x).
Proof. unfold on_ls, cl. rb; auto; lra. Qed.
Lemma side_hit_cl v i : side_hit v i = opp (cl (v i)) (cl (v ((i + 1) mod 4))).
Proof.
  pose proof tol_pos. unfold side_hit. rewrite node_hit_cl.
  set (a := v i). set (b := v ((i + 1) mod 4)).
  destruct (cl a) eqn:A; cbn [isZ negb andb opp]; auto.
  - apply cl_Tie in A. rewrite A. rb; auto; lra.
  - apply cl_Ps in A. destruct (cl b) eqn:B.
    + apply cl_Zr in B. rb; auto; lra.
    + apply cl_Tie in B. rb; auto; lra.
    + apply cl_Ps in B. rb; auto. nra.
    + apply cl_Ng in B. rewrite (Rabs_right a), (Rabs_left b) by lra. rb; auto; try lra; nra.
  - apply cl_Ng in A. destruct (cl b) eqn:B.
    + apply cl_Zr in B. rb; auto; lra.
    + apply cl_Tie in B. rb; auto; lra.
    + apply cl_Ps in B. rewrite (Rabs_left a), (Rabs_right b) by lra. rb; auto; try lra; nra.
    + apply cl_Ng in B. rb; auto. nra.
Qed.

Lemma case2_ext nd nd' sd sd' todo : (forall i, i < 4 -> nd i = nd' i) -> (forall i, i < 4 -> sd i = sd' i) ->
  (forall i, In i todo -> i < 4) -> forall s, case2 nd sd todo s = case2 nd' sd' todo s.
Proof.
  intros Hn Hs. induction todo as [|i t IH]; intros Hi [[m r] n]; auto.
  cbn [case2]. assert (i < 4) by (apply Hi; left; auto).
  assert (forall k, (i + k) mod 4 < 4) by (intros; apply Nat.mod_upper_bound; lia).
  rewrite !Hn, !Hs by auto. rewrite !IH by (intros; apply Hi; right; auto). reflexivity.
Qed.
Lemma case3_ext nd nd' sd sd' todo : (forall i, i < 4 -> nd i = nd' i) -> (forall i, i < 4 -> sd i = sd' i) ->
  (forall i, In i todo -> i < 4) -> case3 nd sd todo = case3 nd' sd' todo.
Proof.
  intros Hn Hs. induction todo as [|i t IH]; intros Hi; auto.
  cbn [case3]. assert (i < 4) by (apply Hi; left; auto).
  assert (forall k, (i + k) mod 4 < 4) by (intros; apply Nat.mod_upper_bound; lia).
  rewrite Hn, !Hs by auto. rewrite IH by (intros; apply Hi; right; auto). reflexivity.
Qed.
Lemma find_mode_ext nd nd' sd sd' mid : (forall i, i < 4 -> nd i = nd' i) -> (forall i, i < 4 -> sd i = sd' i) ->
  find_mode nd sd mid = find_mode nd' sd' mid.
Proof.
  intros Hn Hs. unfold find_mode, n_hits.
  rewrite (case2_ext nd nd' sd sd'), (case3_ext nd nd' sd sd'); auto;
    try (intros i Hi; apply in_seq in Hi; lia).
  rewrite !Hn, !Hs by lia. reflexivity.
Qed.

Definition mk4 {A} (a b c d : A) (i : nat) : A :=
  match i with 0 => a | 1 => b | 2 => c | _ => d end.
Definition nds (c : nat -> cls) (i : nat) := isZ (c i).
Definition sds (c : nat -> cls) (i : nat) := opp (c i) (c ((i + 1) mod 4)).

(** No two neighbouring corners are both on the level set. *)
Definition nocol (c : nat -> cls) : bool :=
  forallb (fun i => negb (onl (c i) && onl (c ((i + 1) mod 4)))) (seq 0 4).

(** The modes and reference numbers that occur. *)
Definition occurring : list found :=
  [(ADJACENT_EDGES, 0, 0); (ADJACENT_EDGES, 1, 0); (ADJACENT_EDGES, 2, 0); (ADJACENT_EDGES, 3, 0);
   (OPPOSITE_EDGES, 0, 0); (OPPOSITE_EDGES, 1, 0); (OPPOSITE_NODES, 0, 0); (OPPOSITE_NODES, 0, 1);
   (NODE_AND_EDGE, 1, 0); (NODE_AND_EDGE, 2, 1); (NODE_AND_EDGE, 3, 2); (NODE_AND_EDGE, 4, 3);
   (NODE_AND_EDGE, 2, 0); (NODE_AND_EDGE, 3, 1); (NODE_AND_EDGE, 4, 2); (NODE_AND_EDGE, 5, 3);
   (NODE_AND_TWO_EDGES, 1, 0); (NODE_AND_TWO_EDGES, 2, 1); (NODE_AND_TWO_EDGES, 3, 2);
   (NODE_AND_TWO_EDGES, 4, 3); (TWO_ADJACENT_EDGES, 0, 0); (TWO_ADJACENT_EDGES, 1, 0)].
Definition mode_eqb (a b : mode) : bool :=
  match a, b with
  | NO_INTERSECTION, NO_INTERSECTION | THROUGH_NODE, THROUGH_NODE | COLINEAR_EDGE, COLINEAR_EDGE
  | ADJACENT_EDGES, ADJACENT_EDGES | OPPOSITE_EDGES, OPPOSITE_EDGES | OPPOSITE_NODES, OPPOSITE_NODES
  | NODE_AND_EDGE, NODE_AND_EDGE | NODE_AND_TWO_EDGES, NODE_AND_TWO_EDGES
  | TWO_ADJACENT_EDGES, TWO_ADJACENT_EDGES => true
  | _, _ => false
  end.
Lemma mode_eqb_eq a b : mode_eqb a b = true -> a = b.
Proof. destruct a, b; auto; discriminate. Qed.
Definition found_eqb (a b : found) : bool :=
  let '(m, r, n) := a in let '(m', r', n') := b in mode_eqb m m' && (r =? r') && (n =? n').
Lemma found_eqb_eq a b : found_eqb a b = true -> a = b.
Proof.
  destruct a as [[m r] n], b as [[m' r'] n']. cbn. intros H.
  apply andb_prop in H. destruct H as [H N]. apply andb_prop in H. destruct H as [M R].
  apply mode_eqb_eq in M. apply Nat.eqb_eq in R, N. congruence.
Qed.

(** Sides that carry intersection nodes. *)
Definition sides_of (m : mode) (r : nat) : list nat :=
  match m with
  | ADJACENT_EDGES | NODE_AND_TWO_EDGES => [r; r + 1]
  | OPPOSITE_EDGES => [r; r + 2]
  | NODE_AND_EDGE => [r]
  | TWO_ADJACENT_EDGES => [r; r + 1; r + 2; r + 3]
  | _ => []
  end.
(** The corner used to decide which sub-elements are positive. *)
Definition ref_corner_of (m : mode) (r n : nat) : nat :=
  match m with OPPOSITE_NODES => n + 1 | _ => r mod 4 end.

Definition corner_ok (c : nat -> cls) (bad : cls -> bool) (x : vertex) : bool :=
  match x with Old k => (k <? 4) && negb (bad (c k)) | Made _ => true end.
Definition corners_ok (c : nat -> cls) (m : mode) (r n : nat) : bool :=
  match subs_of m r n with
  | Ok l =>
      let sp := split_of m r n in
      let pos := isP (c (ref_corner_of m r n)) in
      let a := if pos then fst sp else snd sp in
      let b := if pos then snd sp else fst sp in
      let chk bad k := match nth_error l k with Some s => forallb (corner_ok c bad) (s_vert s) | None => false end in
      forallb (chk isN) a && forallb (chk isP) b
  | Fault _ => false
  end.

Definition mixed (c : nat -> cls) : bool := existsb (fun i => isP (c i)) (seq 0 4) && existsb (fun i => isN (c i)) (seq 0 4).
Definition check (c : nat -> cls) (mid : bool) : bool :=
  match find_mode (nds c) (sds c) mid with
  | Ok (m, r, n) =>
      negb (nocol c) || negb (through m) ||
      (existsb (found_eqb (m, r, n)) occurring
       && forallb (fun k => sds c (k mod 4)) (sides_of m r)
       && negb (onl (c (ref_corner_of m r n)))
       && (corners_ok c m r n || (mode_eqb m OPPOSITE_NODES && negb (mixed c))))
  | Fault _ => true
  end.
Lemma check_all a b c d mid : check (mk4 a b c d) mid = true.
Proof. destruct a, b, c, d, mid; vm_compute; reflexivity. Qed.

Lemma check_facts (c : nat -> cls) mid m r n : nocol c = true ->
  find_mode (nds c) (sds c) mid = Ok (m, r, n) -> through m = true ->
  In (m, r, n) occurring /\ (forall k, In k (sides_of m r) -> sds c (k mod 4) = true) /\
  onl (c (ref_corner_of m r n)) = false /\
  (corners_ok c m r n = true \/ (m = OPPOSITE_NODES /\ mixed c = false)).
Proof.
  intros NC F T.
  set (c' := mk4 (c 0) (c 1) (c 2) (c 3)).
  assert (C : forall i, i < 4 -> c i = c' i).
  { intros i Hi. do 4 (destruct i as [|i]; [reflexivity|]). lia. }
  assert (M4 : forall k, k mod 4 < 4) by (intros; apply Nat.mod_upper_bound; lia).
  pose proof (check_all (c 0) (c 1) (c 2) (c 3) mid) as H. fold c' in H.
  unfold check in H.
  rewrite (find_mode_ext (nds c') (nds c) (sds c') (sds c)) in H.
  2: { intros i Hi. unfold nds. rewrite C; auto. }
  2: { intros i Hi. unfold sds. rewrite !C; auto. }
  rewrite F, T in H.
  assert (NC' : nocol c' = true).
  { rewrite <- NC. unfold nocol. cbn [seq forallb]. rewrite !C; auto; lia. }
  rewrite NC' in H. cbn [negb orb] in H.
  apply andb_prop in H. destruct H as [H H4]. apply andb_prop in H. destruct H as [H H3].
  apply andb_prop in H. destruct H as [H1 H2].
  assert (IN : In (m, r, n) occurring).
  { apply existsb_exists in H1. destruct H1 as (x & X1 & X2). apply found_eqb_eq in X2. subst. auto. }
  assert (R4 : ref_corner_of m r n < 4).
  { unfold occurring in IN. cbn [In] in IN. repeat (destruct IN as [IN|IN]; [injection IN as <- <- <-; cbn; lia|]). destruct IN. }
  split; [auto|]. split; [|split].
  - intros k Hk. rewrite forallb_forall in H2. specialize (H2 k Hk). unfold sds in *. rewrite !C; auto.
  - apply negb_true_iff in H3. rewrite C; auto.
  - apply orb_prop in H4. destruct H4 as [H4|H4].
    + left. rewrite <- H4. unfold corners_ok.
      destruct (subs_of m r n) as [l|]; auto. cbv zeta. rewrite (C _ R4).
      assert (E : forall bad x, corner_ok c bad x = corner_ok c' bad x).
      { intros bad [k|k]; auto. unfold corner_ok. destruct (k <? 4) eqn:K; auto. apply Nat.ltb_lt in K. rewrite (C k K); reflexivity. }
      assert (E2 : forall bad l, forallb (corner_ok c bad) l = forallb (corner_ok c' bad) l).
      { intros bad l0. induction l0; cbn; auto. rewrite E, IHl0. auto. }
      assert (E3 : forall bad ks,
        forallb (fun k => match nth_error l k with Some s => forallb (corner_ok c bad) (s_vert s) | None => false end) ks =
        forallb (fun k => match nth_error l k with Some s => forallb (corner_ok c' bad) (s_vert s) | None => false end) ks).
      { intros bad ks. induction ks; cbn; auto. rewrite IHks. destruct (nth_error l a); auto. rewrite E2. auto. }
      rewrite !E3. reflexivity.
    + right. apply andb_prop in H4. destruct H4 as [H4 H5]. apply mode_eqb_eq in H4. split; auto.
      apply negb_true_iff in H5. exact H5.
Qed.

(** When no corner value ties with the tolerance, and the values are neither all on one side nor
    touch zero at one corner only, a mode is found. *)
Definition noties (c : nat -> cls) : bool :=
  forallb (fun i => match c i with Tie => false | _ => true end) (seq 0 4).
Definition allP (c : nat -> cls) : bool := forallb (fun i => isP (c i)) (seq 0 4).
Definition allN (c : nat -> cls) : bool := forallb (fun i => isN (c i)) (seq 0 4).
Definition nz (c : nat -> cls) : nat := length (filter (fun i => onl (c i)) (seq 0 4)).
Definition check_total (c : nat -> cls) (mid : bool) : bool :=
  negb (noties c) || negb (nocol c) || allP c || allN c || ((nz c =? 1) && negb (mixed c)) ||
  match find_mode (nds c) (sds c) mid with
  | Ok (m, r, n) => through m
  | Fault _ => false
  end.
Lemma check_total_all a b c d mid : check_total (mk4 a b c d) mid = true.
Proof. destruct a, b, c, d, mid; vm_compute; reflexivity. Qed.
Lemma total_facts (c : nat -> cls) mid : noties c = true -> nocol c = true -> allP c = false ->
  allN c = false -> (nz c = 1 -> mixed c = true) ->
  exists m r n, find_mode (nds c) (sds c) mid = Ok (m, r, n) /\ through m = true.
Proof.
  intros NT NC AP AN MX.
  pose proof (check_total_all (c 0) (c 1) (c 2) (c 3) mid) as H.
  set (c' := mk4 (c 0) (c 1) (c 2) (c 3)) in *. unfold check_total in H.
  change (noties c') with (noties c) in H. change (nocol c') with (nocol c) in H.
  change (allP c') with (allP c) in H. change (allN c') with (allN c) in H.
  change (nz c') with (nz c) in H. change (mixed c') with (mixed c) in H.
  rewrite NT, NC, AP, AN in H. cbn [negb orb] in H.
  assert (X : (nz c =? 1) && negb (mixed c) = false).
  { destruct (nz c =? 1) eqn:E; auto. apply Nat.eqb_eq in E. rewrite MX; auto. }
  rewrite X in H. cbn [orb] in H.
  change (find_mode (nds c') (sds c') mid) with (find_mode (nds c) (sds c) mid) in H.
  destruct (find_mode (nds c) (sds c) mid) as [[[m r] n]|]; try discriminate. exists m, r, n. auto.
Qed.
