(** Theorems about local coordinate systems, the transformation of unknowns and inertia. *)
From Coq Require Import Reals Lra.
From Coquelicot Require Import Coquelicot.
From Coq Require Import List Arith Bool Lia.
From Verif Require Import Base BaseLemmas RBool Sens_Proofs2 Heat_Proofs Geom_Model Geom_Spec Geom_Proofs Geom_Proofs2 Geom_Proofs3.
Import ListNotations.
Open Scope R_scope.

(** ** C135: local axes *)
Definition edge (nodes : nat -> point) (i : nat) : point := psub (nodes i) (nodes 0%nat).
Lemma init2_inv nodes e : init_local_elem_2d nodes = Ok e -> exists v1 w v2 v3,
  pdiv (edge nodes 1) (norm (edge nodes 1)) = Ok v1 /\ pdiv (edge nodes 2) (norm (edge nodes 2)) = Ok w /\
  pdiv (cross v1 w) (norm (cross v1 w)) = Ok v3 /\ pdiv (cross v3 v1) (norm (cross v3 v1)) = Ok v2 /\
  e = mkLocal (tmat v1 v2 v3) (local_nodes (tmat v1 v2 v3) nodes) (Some v3).
Proof.
  unfold init_local_elem_2d. intros H. fold (edge nodes 1) in H. fold (edge nodes 2) in H.
  destruct (pdiv (edge nodes 1) _) as [v1|] eqn:E1; [|discriminate]. cbn [bind] in H.
  destruct (pdiv (edge nodes 2) _) as [w|] eqn:E2; [|discriminate]. cbn [bind] in H.
  destruct (pdiv (cross v1 w) _) as [v3|] eqn:E3; [|discriminate]. cbn [bind] in H.
  destruct (pdiv (cross v3 v1) _) as [v2|] eqn:E4; [|discriminate]. cbn [bind] in H. injection H as <-.
  exists v1, w, v2, v3. auto.
Qed.
Lemma init1_inv nodes y e : init_local_elem_1d nodes (Some y) = Ok e -> exists v1 v2 v3,
  pdiv (edge nodes 1) (norm (edge nodes 1)) = Ok v1 /\
  pdiv (cross v1 y) (norm (cross v1 y)) = Ok v3 /\ pdiv (cross v3 v1) (norm (cross v3 v1)) = Ok v2 /\
  e = mkLocal (tmat v1 v2 v3) (local_nodes (tmat v1 v2 v3) nodes) None.
Proof.
  unfold init_local_elem_1d. intros H. fold (edge nodes 1) in H.
  destruct (pdiv (edge nodes 1) _) as [v1|] eqn:E1; [|discriminate]. cbn [bind] in H. unfold assert_ in H.
  destruct (rltb 0 (norm (cross v1 y))); [|discriminate].
  destruct (pdiv (cross v1 y) _) as [v3|] eqn:E3; [|discriminate]. cbn [bind] in H.
  destruct (pdiv (cross v3 v1) _) as [v2|] eqn:E4; [|discriminate]. cbn [bind] in H. injection H as <-.
  exists v1, v2, v3. auto.
Qed.
Lemma init_inv dim n nodes y e : init_local_elem dim n nodes y = Ok (Some e) ->
  (dim = 1%nat /\ exists yv, y = Some yv /\ init_local_elem_1d nodes (Some yv) = Ok e) \/ (dim = 2%nat /\ init_local_elem_2d nodes = Ok e).
Proof.
  unfold init_local_elem. destruct dim as [|[|[|[|d]]]]; try discriminate.
  - destruct (differs nodes n 1 || differs nodes n 2); [|discriminate]. destruct y as [yv|]; [|discriminate].
    destruct (init_local_elem_1d nodes (Some yv)) eqn:E; [|discriminate]. cbn [bind]. intros H. injection H as <-. left. eauto.
  - destruct (differs nodes n 2); [|discriminate]. destruct (init_local_elem_2d nodes) eqn:E; [|discriminate]. cbn [bind]. intros H. injection H as <-. now right.
Qed.
Lemma init_rotation dim n nodes y e : init_local_elem dim n nodes y = Ok (Some e) -> rotation (T e).
Proof.
  intros H. destruct (init_inv _ _ _ _ _ H) as [(-> & yv & -> & E)|(-> & E)].
  - destruct (init1_inv _ _ _ E) as (v1 & v2 & v3 & E1 & E3 & E2 & ->). cbn [T]. apply (axes v1 yv v3); auto. apply (pdiv_ok _ _ E1).
  - destruct (init2_inv _ _ E) as (v1 & w & v2 & v3 & E1 & _ & E3 & E2 & ->). cbn [T]. apply (axes v1 w v3); auto. apply (pdiv_ok _ _ E1).
Qed.
Lemma init_nodes dim n nodes y e : init_local_elem dim n nodes y = Ok (Some e) -> lnode e = local_nodes (T e) nodes.
Proof.
  intros H. destruct (init_inv _ _ _ _ _ H) as [(-> & yv & -> & E)|(-> & E)].
  - destruct (init1_inv _ _ _ E) as (v1 & v2 & v3 & E1 & E3 & E2 & ->). reflexivity.
  - destruct (init2_inv _ _ E) as (v1 & w & v2 & v3 & E1 & _ & E3 & E2 & ->). reflexivity.
Qed.
(** right-handed orthonormal axes, the first along the first edge; the first node is the origin; all distances and
    angles of the element are kept *)
Theorem C135_axes : forall dim n nodes y e, init_local_elem dim n nodes y = Ok (Some e) ->
  rotation (T e) /\
  (exists l, 0 < l /\ forall i, nodes 1%nat i - nodes 0%nat i = l * T e i 0%nat) /\
  (forall j, lnode e 0%nat j = 0) /\
  (forall i j k, inner (psub (lnode e i) (lnode e k)) (psub (lnode e j) (lnode e k)) = inner (psub (nodes i) (nodes k)) (psub (nodes j) (nodes k))).
Proof.
  intros dim n nodes y e H. assert (R := init_rotation _ _ _ _ _ H). assert (L := init_nodes _ _ _ _ _ H). split; [exact R|]. split; [|split].
  - assert (X : exists v1, pdiv (edge nodes 1) (norm (edge nodes 1)) = Ok v1 /\ forall i, T e i 0%nat = v1 i).
    { destruct (init_inv _ _ _ _ _ H) as [(-> & yv & -> & E)|(-> & E)].
      - destruct (init1_inv _ _ _ E) as (v1 & v2 & v3 & E1 & E3 & E2 & ->). exists v1. auto.
      - destruct (init2_inv _ _ E) as (v1 & w & v2 & v3 & E1 & _ & E3 & E2 & ->). exists v1. auto. }
    destruct X as (v1 & E1 & TE). destruct (pdiv_ok _ _ E1) as (P & Q & _). exists (norm (edge nodes 1)). split; [exact P|].
    intros i. rewrite TE, Q. change (edge nodes 1 i) with (nodes 1%nat i - nodes 0%nat i). field. lra.
  - intros j. rewrite L. unfold local_nodes. apply sum_0. intros k _. unfold psub. ring.
  - intros i j k. rewrite <- (inner_local (T e) (psub (nodes i) (nodes k)) (psub (nodes j) (nodes k)) R). unfold inner. apply sum_ext. intros c _.
    rewrite L. unfold psub at 1 2, local_nodes. f_equal.
    + rewrite <- sum_minus. apply sum_ext. intros l _. unfold psub. ring.
    + rewrite <- sum_minus. apply sum_ext. intros l _. unfold psub. ring.
Qed.
(** plates and shells: the third node is in the local x-y plane with positive y; the normal is the local z axis, and
    every node in the plane of the first three has local z zero *)
Theorem C135_plate : forall n nodes y e, init_local_elem 2 n nodes y = Ok (Some e) ->
  lnode e 2%nat 2%nat = 0 /\ 0 < lnode e 2%nat 1%nat /\
  (exists nv, domain_surface_normal (Some e) = Some nv /\ forall i, nv i = T e i 2%nat) /\
  (forall i, inner (psub (nodes i) (nodes 0%nat)) (cross (psub (nodes 1%nat) (nodes 0%nat)) (psub (nodes 2%nat) (nodes 0%nat))) = 0 -> lnode e i 2%nat = 0).
Proof.
  intros n nodes y e H. destruct (init_inv _ _ _ _ _ H) as [(D & _)|(_ & E)]; [discriminate|].
  destruct (init2_inv _ _ E) as (v1 & w & v2 & v3 & E1 & EW & E3 & E2 & ->).
  destruct (pdiv_ok _ _ E1) as (P1 & Q1 & U1). destruct (pdiv_ok _ _ EW) as (P2 & Q2 & U2). destruct (pdiv_ok _ _ E3) as (P3 & Q3 & U3).
  assert (WZ := w_z v1 w v3 E3). assert (WY := w_y v1 w v3 U1 E3 v2 E2).
  assert (SC : forall v, inner v (edge nodes 2) = norm (edge nodes 2) * inner v w).
  { intros v. rewrite !inner3, !Q2. field. lra. }
  cbn [lnode T domain_surface_normal normal]. unfold local_nodes. cbn [tmat]. fold (edge nodes 2). split; [|split; [|split]].
  - change (inner v3 (edge nodes 2) = 0). rewrite SC, WZ. ring.
  - change (0 < inner v2 (edge nodes 2)). rewrite SC. now apply Rmult_lt_0_compat.
  - exists v3. split; reflexivity.
  - intros i Hi. fold (edge nodes i) in *. fold (edge nodes 1) in Hi. change (inner v3 (edge nodes i) = 0).
    assert (X : norm (cross v1 w) * norm (edge nodes 1) * norm (edge nodes 2) * inner v3 (edge nodes i) = inner (edge nodes i) (cross (edge nodes 1) (edge nodes 2))).
    { assert (CR : forall k, cross v1 w k = cross (edge nodes 1) (edge nodes 2) k / (norm (edge nodes 1) * norm (edge nodes 2))).
      { intros k. unfold cross. rewrite !Q1, !Q2. destruct k as [|[|k]]; field; lra. }
      rewrite !inner3, !Q3, !CR. field. lra. }
    rewrite Hi in X. assert (N : norm (cross v1 w) * norm (edge nodes 1) * norm (edge nodes 2) <> 0).
    { apply Rgt_not_eq. apply Rmult_lt_0_compat; [now apply Rmult_lt_0_compat|auto]. }
    apply Rmult_integral in X. destruct X; [contradiction|auto].
Qed.
(** beams: the section's y vector is in the local x-y plane with positive y; nodes on the line of the first two have
    only a local x coordinate *)
Theorem C135_beam : forall n nodes y e, init_local_elem 1 n nodes (Some y) = Ok (Some e) ->
  inner (column (T e) 2) y = 0 /\ 0 < inner (column (T e) 1) y /\ domain_surface_normal (Some e) = None /\
  (forall i s, (forall k, nodes i k - nodes 0%nat k = s * (nodes 1%nat k - nodes 0%nat k)) -> lnode e i 1%nat = 0 /\ lnode e i 2%nat = 0).
Proof.
  intros n nodes y e H. destruct (init_inv _ _ _ _ _ H) as [(_ & yv & EY & E)|(D & _)]; [|discriminate]. injection EY as <-.
  destruct (init1_inv _ _ _ E) as (v1 & v2 & v3 & E1 & E3 & E2 & ->).
  destruct (pdiv_ok _ _ E1) as (P1 & Q1 & U1).
  split; [exact (w_z v1 y v3 E3)|]. split; [exact (w_y v1 y v3 U1 E3 v2 E2)|]. split; [reflexivity|].
  intros i s Hs. assert (A := axes v1 y v3 U1 E3 v2 E2). destruct A as (A & _).
  assert (A1 := A 1%nat 0%nat ltac:(lia) ltac:(lia)). assert (A2 := A 2%nat 0%nat ltac:(lia) ltac:(lia)).
  cbn [lnode]. unfold local_nodes.
  assert (X : forall k, psub (nodes i) (nodes 0%nat) k = s * norm (edge nodes 1) * v1 k).
  { intros k. unfold psub. rewrite Hs, Q1. change (edge nodes 1 k) with (nodes 1%nat k - nodes 0%nat k). field. lra. }
  split.
  - transitivity (s * norm (edge nodes 1) * inner (column (tmat v1 v2 v3) 1) (column (tmat v1 v2 v3) 0)); [|rewrite A1; unfold kron; cbn [Nat.eqb]; ring].
    unfold inner. rewrite <- sum_scal_l. apply sum_ext. intros k _. rewrite X. unfold column, tmat. ring.
  - transitivity (s * norm (edge nodes 1) * inner (column (tmat v1 v2 v3) 2) (column (tmat v1 v2 v3) 0)); [|rewrite A2; unfold kron; cbn [Nat.eqb]; ring].
    unfold inner. rewrite <- sum_scal_l. apply sum_ext. intros k _. rewrite X. unfold column, tmat. ring.
Qed.
(** exactly the elements that leave the x axis or the x-y plane get local axes, unless they are degenerate *)
Lemma differs_false nodes n k : differs nodes n k = false <-> forall i, (i < n)%nat -> nodes i k = nodes 0%nat k.
Proof.
  unfold differs. split.
  - intros H i Hi. destruct i as [|i]; [reflexivity|].
    assert (N : existsb (fun i => negb (reqb (Rabs (nodes 0%nat k - nodes i k)) 0)) (seq 1 (n - 1)) <> true) by (rewrite H; discriminate).
    destruct (reqb (Rabs (nodes 0%nat k - nodes (S i) k)) 0) eqn:E.
    + apply reqb_true in E. destruct (Req_dec (nodes 0%nat k - nodes (S i) k) 0) as [Z|Z]; [lra|]. now apply Rabs_no_R0 in Z.
    + exfalso. apply N. apply existsb_exists. exists (S i). split; [apply in_seq; lia|]. now rewrite E.
  - intros H. destruct (existsb _ _) eqn:E; [|reflexivity]. apply existsb_exists in E. destruct E as (i & Hi & E). apply in_seq in Hi.
    rewrite (H i) in E by lia. replace (nodes 0%nat k - nodes 0%nat k) with 0 in E by ring. rewrite Rabs_R0 in E.
    destruct (reqb 0 0) eqn:Q; [discriminate|]. apply reqb_false in Q. now contradiction Q.
Qed.
Theorem C135_runs_plate : forall n nodes y,
  (forall i, (i < n)%nat -> nodes i 2%nat = nodes 0%nat 2%nat) /\ init_local_elem 2 n nodes y = Ok None \/
  (exists i, (i < n)%nat /\ nodes i 2%nat <> nodes 0%nat 2%nat) /\
    ((exists e, init_local_elem 2 n nodes y = Ok (Some e)) <-> independent (psub (nodes 1%nat) (nodes 0%nat)) (psub (nodes 2%nat) (nodes 0%nat))).
Proof.
  intros n nodes y. unfold init_local_elem. destruct (differs nodes n 2) eqn:D.
  - right. split.
    + unfold differs in D. apply existsb_exists in D. destruct D as (i & Hi & E). apply in_seq in Hi. exists i. split; [lia|]. intros Z. rewrite Z in E.
      replace (nodes 0%nat 2%nat - nodes 0%nat 2%nat) with 0 in E by ring. rewrite Rabs_R0 in E. destruct (reqb 0 0) eqn:Q; [discriminate|]. apply reqb_false in Q. now contradiction Q.
    + fold (edge nodes 1). fold (edge nodes 2). split.
      * intros (e & H). destruct (init_local_elem_2d nodes) as [e'|] eqn:E; [|discriminate].
        destruct (init2_inv _ _ E) as (v1 & w & v2 & v3 & E1 & EW & E3 & E2 & _).
        destruct (pdiv_ok _ _ E1) as (P1 & Q1 & _). destruct (pdiv_ok _ _ EW) as (P2 & Q2 & _). destruct (pdiv_ok _ _ E3) as (P3 & _ & _).
        intros K. apply norm_0 in K. apply (cross_scale _ _ _ _ _ _ Q1 Q2) in K; lra.
      * intros I.
        assert (N1 : norm (edge nodes 1) <> 0).
        { intros Z. apply norm_0 in Z. apply I. intros i Hi. unfold cross. rewrite !Z by lia. destruct i as [|[|i]]; ring. }
        assert (N2 : norm (edge nodes 2) <> 0).
        { intros Z. apply norm_0 in Z. apply I. intros i Hi. unfold cross. rewrite !Z by lia. destruct i as [|[|i]]; ring. }
        destruct (pdiv_runs _ N1) as (v1 & E1). destruct (pdiv_runs _ N2) as (w & E2).
        destruct (pdiv_ok _ _ E1) as (P1 & Q1 & U1). destruct (pdiv_ok _ _ E2) as (P2 & Q2 & _).
        assert (N3 : norm (cross v1 w) <> 0).
        { intros Z. apply (cross_scale _ _ _ _ _ _ Q1 Q2) in Z; auto. apply I. now apply norm_0. }
        destruct (pdiv_runs _ N3) as (v3 & E3). destruct (v2_ok v1 w v3 U1 E3) as (v2 & E4 & _).
        unfold init_local_elem_2d. fold (edge nodes 1). fold (edge nodes 2). rewrite E1. cbn [bind]. rewrite E2. cbn [bind]. rewrite E3. cbn [bind]. rewrite E4. cbn [bind].
        eexists. reflexivity.
  - left. split; [now apply differs_false|reflexivity].
Qed.
Theorem C135_runs_beam : forall n nodes y,
  (forall i, (i < n)%nat -> nodes i 1%nat = nodes 0%nat 1%nat /\ nodes i 2%nat = nodes 0%nat 2%nat) /\ init_local_elem 1 n nodes y = Ok None \/
  (exists i, (i < n)%nat /\ (nodes i 1%nat <> nodes 0%nat 1%nat \/ nodes i 2%nat <> nodes 0%nat 2%nat)) /\
    ((exists e, init_local_elem 1 n nodes y = Ok (Some e)) <->
     exists yv, y = Some yv /\ independent (psub (nodes 1%nat) (nodes 0%nat)) yv).
Proof.
  intros n nodes y. unfold init_local_elem. destruct (differs nodes n 1 || differs nodes n 2) eqn:D.
  - right. split.
    + assert (X : exists k, (k = 1 \/ k = 2)%nat /\ differs nodes n k = true).
      { apply orb_true_iff in D. destruct D as [D|D]; [exists 1%nat|exists 2%nat]; auto. }
      destruct X as (k & Hk & DK). unfold differs in DK. apply existsb_exists in DK. destruct DK as (i & Hi & E). apply in_seq in Hi. exists i. split; [lia|].
      assert (Z : nodes i k <> nodes 0%nat k).
      { intros Z. rewrite Z in E. replace (nodes 0%nat k - nodes 0%nat k) with 0 in E by ring. rewrite Rabs_R0 in E. destruct (reqb 0 0) eqn:Q; [discriminate|]. apply reqb_false in Q. now contradiction Q. }
      destruct Hk as [-> | ->]; auto.
    + fold (edge nodes 1). split.
      * intros (e & H). destruct y as [yv|]; [|discriminate]. exists yv. split; [reflexivity|].
        destruct (init_local_elem_1d nodes (Some yv)) as [e'|] eqn:E; [|discriminate].
        destruct (init1_inv _ _ _ E) as (v1 & v2 & v3 & E1 & E3 & E2 & _).
        destruct (pdiv_ok _ _ E1) as (P1 & Q1 & _). destruct (pdiv_ok _ _ E3) as (P3 & _ & _).
        intros K. apply norm_0 in K. apply (cross_scale _ yv _ yv _ 1 Q1) in K; try lra. intros; field.
      * intros (yv & -> & I).
        assert (N1 : norm (edge nodes 1) <> 0).
        { intros Z. apply norm_0 in Z. apply I. intros i Hi. unfold cross. rewrite !Z by lia. destruct i as [|[|i]]; ring. }
        destruct (pdiv_runs _ N1) as (v1 & E1). destruct (pdiv_ok _ _ E1) as (P1 & Q1 & U1).
        assert (N3 : norm (cross v1 yv) <> 0).
        { intros Z. apply (cross_scale (edge nodes 1) yv v1 yv _ 1 Q1) in Z; auto; [|intros; field]. apply I. now apply norm_0. }
        destruct (pdiv_runs _ N3) as (v3 & E3). destruct (v2_ok v1 yv v3 U1 E3) as (v2 & E4 & _).
        unfold init_local_elem_1d. fold (edge nodes 1). rewrite E1. cbn [bind]. unfold assert_.
        destruct (rltb 0 (norm (cross v1 yv))) eqn:L; [|apply rltb_false in L; assert (P := norm_nonneg (cross v1 yv)); lra].
        rewrite E3. cbn [bind]. rewrite E4. cbn [bind]. eexists. reflexivity.
  - left. split; [|reflexivity]. apply orb_false_iff in D. destruct D as [D1 D2]. intros i Hi.
    split; [exact (proj1 (differs_false _ _ _) D1 i Hi)|exact (proj1 (differs_false _ _ _) D2 i Hi)].
Qed.
(** A beam along the x axis keeps the global axes whatever y vector its section asks for. *)
Definition x_beam (i : nat) : point := fun k => match i, k with S _, O => 1 | _, _ => 0 end.
Definition up : point := fun k => match k with 2%nat => 1 | _ => 0 end.
Theorem C135_x_beam_refuted : exists n nodes y, independent (psub (nodes 1%nat) (nodes 0%nat)) y /\
  init_local_elem 1 n nodes (Some y) = Ok None /\ T_matrix None = Fault AssertFailed /\ inner y (fun k => kron k 1) = 0.
Proof.
  exists 2%nat, x_beam, up. split; [|split; [|split]].
  - intros H. assert (K := H 1%nat ltac:(lia)). cbn in K. unfold psub, x_beam in K. lra.
  - destruct (C135_runs_beam 2 x_beam (Some up)) as [(_ & E)|((i & Hi & [Z|Z]) & _)]; [exact E|exfalso|exfalso]; apply Z; destruct i; reflexivity.
  - reflexivity.
  - rewrite inner3. unfold up, kron. cbn. ring.
Qed.
(** a triangle that stands on the x axis *)
Definition tri (i : nat) : point := fun k => match i, k with 1%nat, 0%nat => 2 | 2%nat, 0%nat => 1 | 2%nat, 2%nat => 3 | _, _ => 0 end.
Example C135_case : exists e, init_local_elem 2 3 tri None = Ok (Some e).
Proof.
  destruct (C135_runs_plate 3 tri None) as [(A & _)|(_ & (_ & B))].
  - assert (K := A 2%nat ltac:(lia)). cbn in K. lra.
  - apply B. intros K. assert (Z := K 1%nat ltac:(lia)). cbn in Z. unfold psub, tri in Z. lra.
Qed.
Example C135_case_beam : exists e, init_local_elem 1 2 (fun i k => match i, k with 1%nat, 1%nat => 4 | _, _ => 0 end) (Some up) = Ok (Some e).
Proof.
  destruct (C135_runs_beam 2 (fun i k => match i, k with 1%nat, 1%nat => 4 | _, _ => 0 end) (Some up)) as [(A & _)|(_ & (_ & B))].
  - assert (K := A 1%nat ltac:(lia)). cbn in K. lra.
  - apply B. exists up. split; [reflexivity|]. intros K. assert (Z := K 0%nat ltac:(lia)). cbn in Z. unfold psub in Z. lra.
Qed.

(** ** C136: points and vectors *)
Theorem C136_points : forall dim n nodes y e, init_local_elem dim n nodes y = Ok (Some e) ->
  (forall i, exists p, transform_point_to_global (Some e) nodes (lnode e i) = Ok p /\ same3 p (nodes i)) /\
  (forall a b p q, transform_point_to_global (Some e) nodes a = Ok p -> transform_point_to_global (Some e) nodes b = Ok q -> dist2 p q = dist2 a b).
Proof.
  intros dim n nodes y e H. assert (R := init_rotation _ _ _ _ _ H). assert (L := init_nodes _ _ _ _ _ H). split.
  - intros i. unfold transform_point_to_global, T_matrix. cbn [bind]. eexists. split; [reflexivity|]. intros j Hj. rewrite L. unfold local_nodes.
    rewrite to_and_back by auto. unfold psub. ring.
  - intros a b p q. unfold transform_point_to_global, T_matrix. cbn [bind]. intros A B. injection A as <-. injection B as <-. unfold dist2.
    rewrite <- (inner_global (T e) (psub a b) (psub a b) R). unfold inner. apply sum_ext. intros j _. unfold psub at 1 2.
    assert (X : forall u v, u + nodes 0%nat j - (v + nodes 0%nat j) = u - v) by (intros; ring). rewrite X. cbn [sum]. unfold psub. ring.
Qed.
Theorem C136_vectors : forall dim n nodes y e, init_local_elem dim n nodes y = Ok (Some e) ->
  forall v, (exists l g, transform_vector_to_local (Some e) v = Ok l /\ transform_vector_to_global (Some e) l = Ok g /\ same3 g v) /\
    (exists g l, transform_vector_to_global (Some e) v = Ok g /\ transform_vector_to_local (Some e) g = Ok l /\ same3 l v) /\
    (forall w lv lw, transform_vector_to_local (Some e) v = Ok lv -> transform_vector_to_local (Some e) w = Ok lw -> inner lv lw = inner v w).
Proof.
  intros dim n nodes y e H v. assert (R := init_rotation _ _ _ _ _ H). unfold transform_vector_to_local, transform_vector_to_global, T_matrix. cbn [bind]. split; [|split].
  - eexists. eexists. split; [reflexivity|]. split; [reflexivity|]. intros j Hj. now apply to_and_back.
  - eexists. eexists. split; [reflexivity|]. split; [reflexivity|]. intros j Hj. now apply back_and_to.
  - intros w lv lw A B. injection A as <-. injection B as <-. now apply inner_local.
Qed.
(** the components in the local system are those along the axes *)
Theorem C136_components : forall e v l, transform_vector_to_local (Some e) v = Ok l -> forall j, l j = inner (column (T e) j) v.
Proof. intros e v l H j. unfold transform_vector_to_local, T_matrix in H. cbn [bind] in H. injection H as <-. reflexivity. Qed.
Theorem C136_none : forall nodes v, T_matrix None = Fault AssertFailed /\ transform_point_to_global None nodes v = Fault AssertFailed /\
  transform_vector_to_global None v = Fault AssertFailed /\ transform_vector_to_local None v = Fault AssertFailed.
Proof. intros. repeat split. Qed.

(** ** C137: the unknowns of structural elements *)
Section Unknowns.
Variables (dim nn : nat) (nodes : nat -> point) (y : option point) (e : option local_elem) (n : nat).
Hypothesis HD : (dim < 3)%nat.
Lemma same_at v w : len v = (6 * n)%nat -> (forall c a, (c < 6)%nat -> (a < n)%nat -> at_ n w c a = at_ n v c a) ->
  forall k, (k < 6 * n)%nat -> cell w k = cell v k.
Proof. intros L H k Hk. destruct (split6 n k Hk) as (c & a & Hc & Ha & ->). now apply H. Qed.
Lemma local_runs v : len v = (6 * n)%nat -> exists w, vector_to_local dim e v = Ok w /\ len w = (6 * n)%nat.
Proof.
  intros L. destruct e as [e'|].
  - destruct (to_local_ok dim e' n v HD L) as (w & E & K & _). eauto.
  - exists v. unfold vector_to_local, assert_. destruct (Nat.ltb_spec dim 3); [auto|lia].
Qed.
Lemma global_runs v : len v = (6 * n)%nat -> exists w, vector_to_global dim e v = Ok w /\ len w = (6 * n)%nat.
Proof.
  intros L. destruct e as [e'|].
  - destruct (to_global_ok dim e' n v HD L) as (w & E & K & _). eauto.
  - exists v. unfold vector_to_global, assert_. destruct (Nat.ltb_spec dim 3); [auto|lia].
Qed.
Lemma cases : (exists e', e = Some e') \/ e = None.
Proof. destruct e; eauto. Qed.
Lemma none_local v w : vector_to_local dim None v = Ok w -> w = v.
Proof. unfold vector_to_local, assert_. destruct (dim <? 3)%nat; [|discriminate]. intros H. now injection H as ->. Qed.
Lemma none_global v w : vector_to_global dim None v = Ok w -> w = v.
Proof. unfold vector_to_global, assert_. destruct (dim <? 3)%nat; [|discriminate]. intros H. now injection H as ->. Qed.
Lemma node_local e' v w s a : e = Some e' -> len v = (6 * n)%nat -> vector_to_local dim e v = Ok w -> (s = 0 \/ s = 3)%nat -> (a < n)%nat ->
  forall i, (i < 3)%nat -> node_vector n w s a i = inner (column (T e') i) (node_vector n v s a).
Proof.
  intros EE L E Hs Ha i Hi. rewrite EE in E. destruct (to_local_ok dim e' n v HD L) as (w' & E' & K & V). rewrite E in E'. injection E' as <-.
  unfold node_vector at 1. rewrite V by (auto; lia). now rewrite (lift_col _ _ s i).
Qed.
Lemma node_global e' v w s a : e = Some e' -> len v = (6 * n)%nat -> vector_to_global dim e v = Ok w -> (s = 0 \/ s = 3)%nat -> (a < n)%nat ->
  forall i, (i < 3)%nat -> node_vector n w s a i = inner (T e' i) (node_vector n v s a).
Proof.
  intros EE L E Hs Ha i Hi. rewrite EE in E. destruct (to_global_ok dim e' n v HD L) as (w' & E' & K & V). rewrite E in E'. injection E' as <-.
  unfold node_vector at 1. rewrite V by (auto; lia). now rewrite (lift_row _ _ s i).
Qed.
Lemma by_nodes v w : len v = (6 * n)%nat ->
  (forall s a i, (s = 0 \/ s = 3)%nat -> (a < n)%nat -> (i < 3)%nat -> node_vector n w s a i = node_vector n v s a i) ->
  forall k, (k < 6 * n)%nat -> cell w k = cell v k.
Proof.
  intros L H. apply same_at; auto. intros c a Hc Ha. destruct (six c Hc) as (s & i & Hs & Hi & ->). now apply H.
Qed.
Lemma inner_ext a b c d : same3 a b -> same3 c d -> inner a c = inner b d.
Proof. intros H K. unfold inner. apply sum_ext. intros i Hi. now rewrite H, K. Qed.
Hypothesis HI : init_local_elem dim nn nodes y = Ok e.
Lemma rot e' : e = Some e' -> rotation (T e').
Proof. intros EE. assert (K := HI). rewrite EE in K. exact (init_rotation _ _ _ _ _ K). Qed.
Lemma round_lg v lv w : len v = (6 * n)%nat -> vector_to_local dim e v = Ok lv -> vector_to_global dim e lv = Ok w ->
  forall k, (k < 6 * n)%nat -> cell w k = cell v k.
Proof.
  intros L E F. destruct (local_runs v L) as (lv' & E' & LL). rewrite E in E'. injection E' as <-.
  destruct cases as [(e' & EE)|EE].
  - apply by_nodes; auto. intros s a i Hs Ha Hi.
    rewrite (node_global e' lv w s a EE LL F Hs Ha i Hi).
    transitivity (inner (T e' i) (fun k => inner (column (T e') k) (node_vector n v s a))).
    + apply inner_ext; [intros ? _; reflexivity|]. intros k Hk. exact (node_local e' v lv s a EE L E Hs Ha k Hk).
    + exact (to_and_back (T e') (node_vector n v s a) i (rot e' EE) Hi).
  - rewrite EE in E, F. apply none_local in E. subst lv. apply none_global in F. now subst.
Qed.
Lemma round_gl v gv w : len v = (6 * n)%nat -> vector_to_global dim e v = Ok gv -> vector_to_local dim e gv = Ok w ->
  forall k, (k < 6 * n)%nat -> cell w k = cell v k.
Proof.
  intros L E F. destruct (global_runs v L) as (lv' & E' & LL). rewrite E in E'. injection E' as <-.
  destruct cases as [(e' & EE)|EE].
  - apply by_nodes; auto. intros s a i Hs Ha Hi.
    rewrite (node_local e' gv w s a EE LL F Hs Ha i Hi).
    transitivity (inner (column (T e') i) (fun k => inner (T e' k) (node_vector n v s a))).
    + apply inner_ext; [intros ? _; reflexivity|]. intros k Hk. exact (node_global e' v gv s a EE L E Hs Ha k Hk).
    + exact (back_and_to (T e') (node_vector n v s a) i (rot e' EE) Hi).
  - rewrite EE in E, F. apply none_global in E. subst gv. apply none_local in F. now subst.
Qed.
Lemma work_inv f g u lu : len f = (6 * n)%nat -> len u = (6 * n)%nat -> vector_to_global dim e f = Ok g -> vector_to_local dim e u = Ok lu ->
  work g u = work f lu.
Proof.
  intros LF LU G L. destruct (global_runs f LF) as (g' & G' & LG). rewrite G in G'. injection G' as <-.
  destruct cases as [(e' & EE)|EE].
  - rewrite (work_nodes n g u LG), (work_nodes n f lu LF).
    assert (X : forall s a, (s = 0 \/ s = 3)%nat -> (a < n)%nat -> inner (node_vector n g s a) (node_vector n u s a) = inner (node_vector n f s a) (node_vector n lu s a)).
    { intros s a Hs Ha.
      transitivity (inner (fun i => inner (T e' i) (node_vector n f s a)) (node_vector n u s a)).
      { apply inner_ext; [|intros ? _; reflexivity]. intros i Hi. exact (node_global e' f g s a EE LF G Hs Ha i Hi). }
      transitivity (inner (node_vector n f s a) (fun i => inner (column (T e') i) (node_vector n u s a))).
      { rewrite !inner3. unfold column. ring. }
      apply inner_ext; [intros ? _; reflexivity|]. intros i Hi. symmetry. exact (node_local e' u lu s a EE LU L Hs Ha i Hi). }
    apply sum_ext. intros a Ha. now rewrite !X by auto.
  - rewrite EE in G, L. apply none_global in G. apply none_local in L. now subst.
Qed.
End Unknowns.
(** translations and rotations of every node are expressed in the axes, and back *)
Theorem C137_vectors : forall dim nn nodes y e n v lv, (dim < 3)%nat -> init_local_elem dim nn nodes y = Ok (Some e) -> len v = (6 * n)%nat ->
  vector_to_local dim (Some e) v = Ok lv ->
  len lv = (6 * n)%nat /\
  forall a, (a < n)%nat -> forall s, (s = 0 \/ s = 3)%nat -> forall i, (i < 3)%nat ->
    node_vector n lv s a i = inner (column (T e) i) (node_vector n v s a).
Proof.
  intros dim nn nodes y e n v lv HD HI L E. split.
  - destruct (local_runs dim (Some e) n HD v L) as (w & E' & K). rewrite E in E'. now injection E' as <-.
  - intros a Ha s Hs i Hi. exact (node_local dim (Some e) n HD e v lv s a eq_refl L E Hs Ha i Hi).
Qed.
Theorem C137_round_trip : forall dim nn nodes y e n v, (dim < 3)%nat -> init_local_elem dim nn nodes y = Ok e -> len v = (6 * n)%nat ->
  (exists lv w, vector_to_local dim e v = Ok lv /\ vector_to_global dim e lv = Ok w /\ forall k, (k < 6 * n)%nat -> cell w k = cell v k) /\
  (exists gv w, vector_to_global dim e v = Ok gv /\ vector_to_local dim e gv = Ok w /\ forall k, (k < 6 * n)%nat -> cell w k = cell v k).
Proof.
  intros dim nn nodes y e n v HD HI L. split.
  - destruct (local_runs dim e n HD v L) as (lv & E & K). destruct (global_runs dim e n HD lv K) as (w & F & _). exists lv, w. split; [exact E|]. split; [exact F|].
    exact (round_lg dim nn nodes y e n HD HI v lv w L E F).
  - destruct (global_runs dim e n HD v L) as (lv & E & K). destruct (local_runs dim e n HD lv K) as (w & F & _). exists lv, w. split; [exact E|]. split; [exact F|].
    exact (round_gl dim nn nodes y e n HD HI v lv w L E F).
Qed.
Theorem C137_work : forall dim nn nodes y e n f g u lu, (dim < 3)%nat -> init_local_elem dim nn nodes y = Ok e ->
  len f = (6 * n)%nat -> len u = (6 * n)%nat ->
  vector_to_global dim e f = Ok g -> vector_to_local dim e u = Ok lu -> work g u = work f lu.
Proof. intros. now apply (work_inv dim nn nodes y e n). Qed.
Theorem C137_matrix : forall dim nn nodes y e n m, (dim < 3)%nat -> init_local_elem dim nn nodes y = Ok e ->
  rows m = (6 * n)%nat -> cols m = (6 * n)%nat ->
  exists g, matrix_to_global dim e m = Ok g /\ rows g = (6 * n)%nat /\ cols g = (6 * n)%nat /\
  (forall u lu fu, len u = (6 * n)%nat -> vector_to_local dim e u = Ok lu -> vector_to_global dim e (apply m lu) = Ok fu ->
    forall k, (k < 6 * n)%nat -> cell (apply g u) k = cell fu k) /\
  (symmetric m -> symmetric g) /\ (semidefinite m -> semidefinite g).
Proof.
  intros dim nn nodes y e n m HD HI Hr Hc. destruct e as [e|].
  - destruct (matrix_ok dim e n m HD Hr Hc) as (g & b & EB & G & R1 & C1 & V). exists g. split; [exact G|]. split; [exact R1|]. split; [exact C1|]. split; [|split].
    + intros u lu fu LU L F k Hk. exact (matrix_apply dim e n m g u lu fu HD Hr Hc LU G L F k Hk).
    + intros S i j Hi Hj. rewrite !V.
      transitivity (sum (6 * n) (fun k => sum (6 * n) (fun l => ent b i l * ent m l k * ent b j k))); [apply sum_ext; intros; now rewrite sum_scal_r|].
      rewrite sum_swap. apply sum_ext. intros l Hl. rewrite <- sum_scal_r. apply sum_ext. intros k Hk. rewrite (S l k) by (rewrite Hr; auto). ring.
    + intros P u LU. rewrite R1 in LU. destruct (local_runs dim (Some e) n HD u LU) as (lu & L & LL).
      assert (LA : len (apply m lu) = (6 * n)%nat) by exact Hr.
      destruct (global_runs dim (Some e) n HD (apply m lu) LA) as (fu & F & LF).
      assert (W := work_inv dim nn nodes y (Some e) n HD HI (apply m lu) fu u lu LA LU F L).
      replace (work (apply g u) u) with (work fu u).
      * rewrite W. apply P. now rewrite Hr.
      * unfold work. cbn [len apply]. rewrite LF, R1. apply sum_ext. intros k Hk. f_equal. symmetry.
        exact (matrix_apply dim e n m g u lu fu HD Hr Hc LU G L F k Hk).
  - exists m. unfold matrix_to_global, assert_. destruct (Nat.ltb_spec dim 3); [|lia]. rewrite Hr, Hc, Nat.eqb_refl. repeat split; auto.
    intros u lu fu LU L F k Hk. apply (none_local dim) in L. subst lu. apply (none_global dim) in F. now subst fu.
Qed.
(** a vector whose size is not a multiple of six cannot be transformed *)
Theorem C137_sizes : forall dim e v, (len v mod 6 <> 0)%nat ->
  vector_to_local dim (Some e) v = Fault AssertFailed /\ vector_to_global dim (Some e) v = Fault AssertFailed.
Proof.
  intros dim e v H. assert (N : (6 * (len v / 6) <> len v)%nat) by (assert (K := Nat.div_mod (len v) 6); lia).
  destruct (big_T_spec (len v / 6) (T e)) as (m & E & R1 & C1 & _).
  unfold vector_to_local, vector_to_global, T_matrix, assert_. destruct (dim <? 3)%nat; [|split; reflexivity]. cbn [bind]. rewrite E. cbn [bind].
  unfold mul_mv, transpose, assert_. cbn [cols]. rewrite R1, C1. destruct (Nat.eqb_spec (6 * (len v / 6)) (len v)); [contradiction|]. split; reflexivity.
Qed.
(** if the local Jacobian is the derivative of the local force, so is the global Jacobian of the global force *)
Theorem C137_jacobian : forall dim nn nodes y e n (Fl : arr R -> arr R) J Jg u lu v (G : R -> arr R),
  (dim < 3)%nat -> init_local_elem dim nn nodes y = Ok e ->
  rows J = (6 * n)%nat -> cols J = (6 * n)%nat -> len u = (6 * n)%nat -> len v = (6 * n)%nat ->
  (forall w, len (Fl w) = (6 * n)%nat) ->
  (forall a b, len a = len b -> (forall k, (k < len a)%nat -> cell a k = cell b k) -> forall k, cell (Fl a) k = cell (Fl b) k) ->
  vector_to_local dim e u = Ok lu ->
  (forall w k, len w = (6 * n)%nat -> (k < 6 * n)%nat -> is_derive (fun s => cell (Fl (moved lu w s)) k) 0 (cell (apply J w) k)) ->
  matrix_to_global dim e J = Ok Jg ->
  (forall s, exists l, vector_to_local dim e (moved u v s) = Ok l /\ vector_to_global dim e (Fl l) = Ok (G s)) ->
  forall k, (k < 6 * n)%nat -> is_derive (fun s => cell (G s) k) 0 (cell (apply Jg v) k).
Proof.
  intros dim nn nodes y e n Fl J Jg u lu v G HD HI Hr Hc LU LV LF EF ELU DF EJ HG k Hk.
  destruct (local_runs dim e n HD v LV) as (lv & ELV & LLV). destruct (local_runs dim e n HD u LU) as (lu' & ELU' & LLU). rewrite ELU in ELU'. injection ELU' as <-.
  assert (LA : len (apply J lv) = (6 * n)%nat) by exact Hr.
  destruct (global_runs dim e n HD (apply J lv) LA) as (fv & EFV & LFV).
  destruct (C137_matrix dim nn nodes y e n J HD HI Hr Hc) as (Jg' & EJ' & _ & _ & AP & _). rewrite EJ in EJ'. injection EJ' as <-.
  rewrite (AP v lv fv LV ELV EFV k Hk).
  assert (ML : forall s l, vector_to_local dim e (moved u v s) = Ok l -> len l = (6 * n)%nat /\ forall k, (k < 6 * n)%nat -> cell l k = cell (moved lu lv s) k).
  { intros s l EL. assert (LM : len (moved u v s) = (6 * n)%nat) by exact LU.
    destruct (local_runs dim e n HD _ LM) as (l' & EL' & LL). rewrite EL in EL'. injection EL' as <-. split; [exact LL|].
    destruct e as [e'|] eqn:EE.
    - apply same_at; [exact LLU|]. intros c a Hc' Ha. destruct (six c Hc') as (s' & i & Hs & Hi & ->).
      rewrite <- EE in EL, ELU, ELV. assert (E1 := node_local dim e n HD e' _ l s' a EE LM EL Hs Ha i Hi).
      assert (E2 := node_local dim e n HD e' u lu s' a EE LU ELU Hs Ha i Hi). assert (E3 := node_local dim e n HD e' v lv s' a EE LV ELV Hs Ha i Hi).
      unfold node_vector at 1 in E1. unfold node_vector at 1 in E2. unfold node_vector at 1 in E3. unfold at_ at 2. cbn [cell moved].
      fold (at_ n lu (s' + i) a). fold (at_ n lv (s' + i) a). rewrite E1, E2, E3. rewrite !inner3. unfold node_vector, at_, moved. cbn [cell]. ring.
    - intros k0 Hk0. apply (none_local dim) in EL. apply (none_local dim) in ELU. apply (none_local dim) in ELV. now subst. }
  assert (LOC : forall s l, vector_to_local dim e (moved u v s) = Ok l -> forall j, cell (Fl l) j = cell (Fl (moved lu lv s)) j).
  { intros s l EL. destruct (ML s l EL) as [L1 L2]. apply EF; [rewrite L1; symmetry; exact LLU|]. intros j Hj. apply L2. now rewrite <- L1. }
  destruct e as [e'|].
  - destruct (split6 n k Hk) as (c & a & Hc' & Ha & ->).
    destruct (to_global_ok dim e' n _ HD LA) as (w & EW & _ & VW). rewrite EFV in EW. injection EW as <-.
    change (cell fv (c * n + a)) with (at_ n fv c a). rewrite VW by auto.
    apply (der_ext (fun s => sum 6 (fun d => lift (T e') c d * cell (Fl (moved lu lv s)) (d * n + a)%nat)) _ 0 (sum 6 (fun d => lift (T e') c d * at_ n (apply J lv) d a))); [|reflexivity|].
    + intros s. destruct (HG s) as (l & EL & EG). destruct (to_global_ok dim e' n (Fl l) HD (LF l)) as (w & EW & _ & V2). rewrite EG in EW. injection EW as <-.
      change (cell (G s) (c * n + a)) with (at_ n (G s) c a). rewrite V2 by auto. apply sum_ext. intros d _. unfold at_. now rewrite (LOC s l EL).
    + apply (der_sum 6 (fun d s => lift (T e') c d * cell (Fl (moved lu lv s)) (d * n + a)%nat)). intros d Hd. apply der_scal. apply DF; [exact LLV|]. now apply flat_lt.
  - apply (none_global dim) in EFV. subst fv.
    apply (der_ext (fun s => cell (Fl (moved lu lv s)) k) _ 0 (cell (apply J lv) k)); [|reflexivity|now apply DF].
    intros s. destruct (HG s) as (l & EL & EG). apply (none_global dim) in EG. rewrite EG. now apply LOC.
Qed.
Example C137_case : exists e v lv, init_local_elem 2 3 tri None = Ok (Some e) /\ len v = (6 * 3)%nat /\ vector_to_local 2 (Some e) v = Ok lv /\
  forall w, len (apply (mkMat 18 18 (fun i j => kron i j)) w) = (6 * 3)%nat.
Proof.
  destruct C135_case as (e & E). destruct (local_runs 2 (Some e) 3 ltac:(lia) (mkArr 18 (fun k => INR k)) eq_refl) as (lv & L & _).
  exists e, (mkArr 18 (fun k => INR k)), lv. repeat split; auto.
Qed.

(** ** C138: inertia of 1D and 2D elements *)
Definition vsub (a b : arr R) : arr R := mkArr (len a) (fun k => cell a k - cell b k).
Definition msub (a b : mat R) : mat R := mkMat (rows a) (cols a) (fun i j => ent a i j - ent b i j).
Lemma inertial_inv dim n e diagonal qs acc req f jm f' jm' : (dim < 3)%nat -> len acc = (6 * n)%nat ->
  inertial_residual dim n e diagonal qs acc req f jm = Ok (f', jm') ->
  exists la s v, vector_to_local dim e acc = Ok la /\ local_inertia n diagonal qs la req = Ok s /\ vector_to_global dim e (fst s) = Ok v /\
    len v = len f /\ len f' = len f /\ (forall k, cell f' k = cell f k + cell v k) /\
    (req = false -> jm' = jm) /\
    (req = true -> exists m, matrix_to_global dim e (snd s) = Ok m /\ rows jm' = rows m /\ cols jm' = cols m /\ forall i j, ent jm' i j = ent jm i j + ent m i j).
Proof.
  intros HD LA. unfold inertial_residual, set_solution. destruct (Nat.eqb_spec dim 3); [lia|]. intros H.
  destruct (vector_to_local dim e acc) as [la|] eqn:E1; [|discriminate]. cbn [bind] in H.
  destruct (local_inertia n diagonal qs la req) as [s|] eqn:E2; [|discriminate]. cbn [bind] in H.
  destruct (Nat.ltb_spec dim 3); [|lia].
  destruct (vector_to_global dim e (fst s)) as [v|] eqn:E3; [|discriminate]. cbn [bind] in H.
  unfold vplus, assert_ in H. destruct (Nat.eqb_spec (len f) (len v)) as [LE|]; [|discriminate]. cbn [bind] in H.
  exists la, s, v. destruct req.
  - destruct (matrix_to_global dim e (snd s)) as [m|] eqn:E4; [|discriminate]. cbn [bind] in H.
    unfold mplus, assert_ in H. destruct (Nat.eqb_spec (rows jm) (rows m)), (Nat.eqb_spec (cols jm) (cols m)); try discriminate. cbn [bind andb] in H.
    injection H as <- <-. repeat split; auto; [discriminate|]. intros _. exists m. repeat split; auto.
  - injection H as <- <-. repeat split; auto. discriminate.
Qed.
(** what is added is the added matrix times the acceleration, consistent or diagonal, in any axes *)
Theorem C138_mass : forall dim nn nodes y e n diagonal qs acc f jm f' jm', (dim < 3)%nat -> init_local_elem dim nn nodes y = Ok e ->
  (forall q, In q qs -> rows (inert q) = 6%nat /\ cols (inert q) = 6%nat) -> len acc = (6 * n)%nat ->
  inertial_residual dim n e diagonal qs acc true f jm = Ok (f', jm') ->
  forall k, (k < 6 * n)%nat -> cell (vsub f' f) k = cell (apply (msub jm' jm) acc) k.
Proof.
  intros dim nn nodes y e n diagonal qs acc f jm f' jm' HD HI HQ LA H k Hk.
  destruct (inertial_inv _ _ _ _ _ _ _ _ _ _ _ HD LA H) as (la & s & v & E1 & E2 & E3 & L1 & L2 & V & _ & M). destruct (M eq_refl) as (m & E4 & RM & CM & VM).
  destruct (local_runs dim e n HD acc LA) as (la' & E1' & LLA). rewrite E1 in E1'. injection E1' as <-.
  destruct (local_mass n diagonal qs la s HQ LLA E2) as (S1 & S2 & S3 & SM).
  destruct (C137_matrix dim nn nodes y e n (snd s) HD HI S2 S3) as (g & EG & G1 & G2 & AP & _). rewrite E4 in EG. injection EG as <-.
  assert (LAP : len (apply (snd s) la) = (6 * n)%nat) by exact S2.
  destruct (global_runs dim e n HD _ LAP) as (w & EW & LW).
  assert (X : cell v k = cell w k).
  { destruct e as [e'|].
    - destruct (to_global_ok dim e' n _ HD S1) as (v' & EV & _ & VV). rewrite E3 in EV. injection EV as <-.
      destruct (to_global_ok dim e' n _ HD LAP) as (w' & EW' & _ & WW). rewrite EW in EW'. injection EW' as <-.
      destruct (split6 n k Hk) as (c & a & Hc & Ha & ->). change (at_ n v c a = at_ n w c a). rewrite VV, WW by auto. apply sum_ext. intros d Hd. f_equal.
      unfold at_. apply SM. now apply flat_lt.
    - apply (none_global dim) in E3. apply (none_global dim) in EW. subst. now apply SM. }
  transitivity (cell w k).
  - unfold vsub. cbn [cell]. rewrite V, X. ring.
  - rewrite <- (AP acc la w LA E1 EW k Hk). unfold apply, msub. cbn [cell rows cols ent]. rewrite CM. apply sum_ext. intros j _. cbn [ent]. rewrite VM. ring.
Qed.
(** power of the inertia forces of a consistent mass *)
Theorem C138_power : forall dim nn nodes y e n qs acc la u lu req f jm f' jm', (dim < 3)%nat -> init_local_elem dim nn nodes y = Ok e ->
  (forall q, In q qs -> rows (inert q) = 6%nat /\ cols (inert q) = 6%nat) -> len acc = (6 * n)%nat -> len u = (6 * n)%nat ->
  vector_to_local dim e acc = Ok la -> vector_to_local dim e u = Ok lu ->
  inertial_residual dim n e false qs acc req f jm = Ok (f', jm') ->
  work (vsub f' f) u = integral qs (fun q => sum 6 (fun c => value n q lu c * sum 6 (fun d => ent (inert q) c d * value n q la d))).
Proof.
  intros dim nn nodes y e n qs acc la u lu req f jm f' jm' HD HI HQ LA LU E1 EU H.
  destruct (inertial_inv _ _ _ _ _ _ _ _ _ _ _ HD LA H) as (la' & s & v & E1' & E2 & E3 & L1 & L2 & V & _). rewrite E1 in E1'. injection E1' as <-.
  destruct (local_runs dim e n HD acc LA) as (la' & E1' & LLA). rewrite E1 in E1'. injection E1' as <-.
  destruct (consistent_ok n qs la req HQ LLA) as (s' & E2' & S1 & _ & _ & SV & _). rewrite E2 in E2'. injection E2' as <-.
  destruct (global_runs dim e n HD _ S1) as (v' & E3' & LV). rewrite E3 in E3'. injection E3' as <-.
  transitivity (work v u).
  - unfold work, vsub. cbn [len cell]. rewrite L2, <- L1. apply sum_ext. intros k _. rewrite V. ring.
  - rewrite (work_inv dim nn nodes y e n HD HI (fst s) v u lu S1 LU E3 EU). unfold work. rewrite S1, sum_flat.
    transitivity (sum 6 (fun c => sum n (fun a => integral qs (fun q => iphi q a * sum 6 (fun d => ent (inert q) c d * value n q la d)) * at_ n lu c a))).
    { apply sum_ext. intros c Hc. apply sum_ext. intros a Ha. change (cell (fst s) (c * n + a)) with (at_ n (fst s) c a). now rewrite SV. }
    clear. unfold integral. induction qs as [|q qs IH]; cbn [fold_right].
    + apply sum_0. intros; apply sum_0. intros; ring.
    + rewrite <- IH. clear IH. rewrite <- sum_scal_l, <- sum_plus. apply sum_ext. intros c _. set (z := sum 6 (fun d => ent (inert q) c d * value n q la d)). unfold value at 2. rewrite <- sum_scal_r, <- sum_scal_l, <- sum_plus. apply sum_ext. intros a _. unfold value. ring.
Qed.
(** the matrix added is symmetric if the inertia matrices are *)
Theorem C138_symmetric : forall dim nn nodes y e n diagonal qs acc f jm f' jm', (dim < 3)%nat -> init_local_elem dim nn nodes y = Ok e ->
  (forall q, In q qs -> rows (inert q) = 6%nat /\ cols (inert q) = 6%nat /\ symmetric (inert q)) -> len acc = (6 * n)%nat ->
  inertial_residual dim n e diagonal qs acc true f jm = Ok (f', jm') -> symmetric (msub jm' jm).
Proof.
  intros dim nn nodes y e n diagonal qs acc f jm f' jm' HD HI HQ LA H.
  destruct (inertial_inv _ _ _ _ _ _ _ _ _ _ _ HD LA H) as (la & s & v & E1 & E2 & E3 & L1 & L2 & V & _ & M). destruct (M eq_refl) as (m & E4 & RM & CM & VM).
  destruct (local_runs dim e n HD acc LA) as (la' & E1' & LLA). rewrite E1 in E1'. injection E1' as <-.
  assert (HQ' : forall q, In q qs -> six_by_six q) by (intros q Hq; destruct (HQ q Hq) as (A & B & _); split; auto).
  destruct (local_mass n diagonal qs la s HQ' LLA E2) as (S1 & S2 & S3 & _).
  destruct (C137_matrix dim nn nodes y e n (snd s) HD HI S2 S3) as (g & EG & G1 & G2 & _ & SY & _). rewrite E4 in EG. injection EG as <-.
  assert (SS : symmetric (snd s)).
  { intros i j Hi Hj. rewrite S2 in Hi, Hj. destruct (split6 n i Hi) as (c & a & Hc & Ha & ->). destruct (split6 n j Hj) as (d & b & Hd & Hb & ->).
    destruct diagonal.
    - destruct qs as [|q0 qs]; [discriminate|]. destruct (diagonal_ok n q0 qs la true (HQ' q0 (or_introl eq_refl)) LLA) as (s' & E2' & _ & _ & _ & _ & DM). rewrite E2 in E2'. injection E2' as <-.
      rewrite !DM by auto. unfold kron. rewrite (Nat.eqb_sym d c), (Nat.eqb_sym b a). destruct (Nat.eqb_spec c d); [subst; reflexivity|ring].
    - destruct (consistent_ok n qs la true HQ' LLA) as (s' & E2' & _ & _ & _ & _ & CM'). rewrite E2 in E2'. injection E2' as <-. rewrite !CM' by auto.
      clear - HQ Hc Hd. unfold integral. induction qs as [|q qs IH]; cbn [fold_right]; [reflexivity|]. rewrite IH by (intros; apply HQ; now right).
      destruct (HQ q (or_introl eq_refl)) as (A & _ & S). rewrite (S c d) by (rewrite A; auto). ring. }
  intros i j Hi Hj. unfold msub in *. cbn [rows ent] in *. rewrite !VM. assert (K := SY SS i j). rewrite RM in Hi, Hj. specialize (K Hi Hj). lra.
Qed.
(** a rigid acceleration of a consistent mass: total mass times acceleration, for any density *)
Definition uniform (n : nat) (a0 : point) : arr R := mkArr (6 * n) (fun k => if (k <? 3 * n)%nat then a0 (k / n)%nat else 0).
Lemma uniform_at n a0 c a : (c < 6)%nat -> (a < n)%nat -> at_ n (uniform n a0) c a = if (c <? 3)%nat then a0 c else 0.
Proof.
  intros Hc Ha. unfold at_, uniform. cbn [cell]. rewrite flat_div by auto. destruct (Nat.ltb_spec (c * n + a) (3 * n)), (Nat.ltb_spec c 3); try reflexivity; nia.
Qed.
Theorem C138_total : forall dim nn nodes y e n qs rho a0 b0 req f jm f' jm', (dim < 3)%nat -> init_local_elem dim nn nodes y = Ok e ->
  (forall q, In q qs -> rows (inert q) = 6%nat /\ cols (inert q) = 6%nat /\ sum n (iphi q) = 1 /\
     forall c d, (c < 3)%nat -> (d < 3)%nat -> ent (inert q) c d = rho q * kron c d) ->
  inertial_residual dim n e false qs (uniform n a0) req f jm = Ok (f', jm') ->
  work (vsub f' f) (uniform n b0) = integral qs rho * inner a0 b0.
Proof.
  intros dim nn nodes y e n qs rho a0 b0 req f jm f' jm' HD HI HQ H.
  assert (LA : forall a, len (uniform n a) = (6 * n)%nat) by reflexivity.
  destruct (local_runs dim e n HD (uniform n a0) (LA a0)) as (la & E1 & LLA). destruct (local_runs dim e n HD (uniform n b0) (LA b0)) as (lb & E2 & LLB).
  rewrite (C138_power dim nn nodes y e n qs (uniform n a0) la (uniform n b0) lb req f jm f' jm' HD HI (fun q h => conj (proj1 (HQ q h)) (proj1 (proj2 (HQ q h)))) (LA a0) (LA b0) E1 E2 H).
  assert (X : exists t, (forall p q, inner (fun j => inner (column t j) p) (fun j => inner (column t j) q) = inner p q) /\
     forall a l, vector_to_local dim e (uniform n a) = Ok l -> forall c b, (c < 6)%nat -> (b < n)%nat -> at_ n l c b = if (c <? 3)%nat then inner (column t c) a else 0).
  { destruct e as [e'|].
    - exists (T e'). split; [intros p q; exact (inner_local (T e') p q (init_rotation _ _ _ _ _ HI))|].
      intros a l EL c b Hc Hb. destruct (six c Hc) as (s & i & Hs & Hi & ->).
      assert (K := node_local dim (Some e') n HD e' (uniform n a) l s b eq_refl (LA a) EL Hs Hb i Hi). unfold node_vector at 1 in K. rewrite K.
      rewrite inner3. unfold node_vector. rewrite !uniform_at by lia. destruct Hs as [-> | ->]; cbn [Nat.add Nat.ltb Nat.leb].
      + destruct i as [|[|[|i]]]; try lia; rewrite inner3; reflexivity.
      + destruct i as [|[|[|i]]]; try lia; cbn; ring.
    - exists kron. assert (KI : forall p c, (c < 3)%nat -> inner (column kron c) p = p c).
      { intros p c Hc. rewrite inner3. unfold column, kron. destruct c as [|[|[|c]]]; try lia; cbn; ring. }
      split; [intros p q; apply inner_ext; intros c Hc; now apply KI|].
      intros a l EL c b Hc Hb. apply (none_local dim) in EL. subst l. rewrite uniform_at by auto. destruct (Nat.ltb_spec c 3); [now rewrite KI|reflexivity]. }
  destruct X as (t & TI & TV).
  assert (VU : forall a l q c, vector_to_local dim e (uniform n a) = Ok l -> In q qs -> (c < 6)%nat -> value n q l c = if (c <? 3)%nat then inner (column t c) a else 0).
  { intros a l q c EL Hq Hc. unfold value. rewrite (sum_ext n _ (fun b => iphi q b * (if (c <? 3)%nat then inner (column t c) a else 0))) by (intros b Hb; now rewrite (TV a l EL c b Hc Hb)).
    rewrite sum_scal_r. destruct (HQ q Hq) as (_ & _ & P & _). rewrite P. ring. }
  rewrite <- (TI a0 b0).
  assert (PT : forall q, In q qs -> sum 6 (fun c => value n q lb c * sum 6 (fun d => ent (inert q) c d * value n q la d)) = rho q * inner (fun j => inner (column t j) a0) (fun j => inner (column t j) b0)).
  { intros q Hq. destruct (HQ q Hq) as (_ & _ & _ & DD).
    assert (IN : forall c, (c < 3)%nat -> sum 6 (fun d => ent (inert q) c d * value n q la d) = rho q * inner (column t c) a0).
    { intros c Hc. change 6%nat with (3 + 3)%nat. rewrite sum_add. rewrite (sum_0 3 (fun k => ent (inert q) c (3 + k) * value n q la (3 + k)%nat)).
      - rewrite (sum_single 3 c); [rewrite DD, (VU a0 la q c E1 Hq) by lia; unfold kron; rewrite Nat.eqb_refl; destruct (Nat.ltb_spec c 3); [ring|lia]|exact Hc|].
        intros d Hd Hne. rewrite DD by auto. unfold kron. destruct (Nat.eqb_spec c d); [congruence|ring].
      - intros k Hk. rewrite (VU a0 la q (3 + k)%nat E1 Hq) by lia. destruct (Nat.ltb_spec (3 + k) 3); [lia|ring]. }
    change 6%nat with (3 + 3)%nat at 1. rewrite sum_add. rewrite (sum_0 3 (fun k => value n q lb (3 + k)%nat * _)).
    - rewrite Rplus_0_r. unfold inner at 1. rewrite <- sum_scal_l. apply sum_ext. intros c Hc. rewrite IN by auto. rewrite (VU b0 lb q c E2 Hq) by lia. destruct (Nat.ltb_spec c 3); [ring|lia].
    - intros k Hk. rewrite (VU b0 lb q (3 + k)%nat E2 Hq) by lia. destruct (Nat.ltb_spec (3 + k) 3); [lia|ring]. }
  clear - PT. set (z := inner (fun j => inner (column t j) a0) (fun j => inner (column t j) b0)) in *. unfold integral. induction qs as [|q qs IH]; cbn [fold_right]; [ring|].
  rewrite IH by (intros; apply PT; now right). rewrite PT by now left. ring.
Qed.
(** sensitivity: the same code with the derivative of the inertia matrix gives the derivative, both forms *)
Definition ptf : Type := (R * (nat -> R) * (R -> mat R))%type.
Definition points_at (pts : list ptf) (t : R) : list ipt := map (fun p => mkI (fst (fst p)) (snd (fst p)) (snd p t)) pts.
Definition points_d (pts : list ptf) (d : ptf -> mat R) : list ipt := map (fun p => mkI (fst (fst p)) (snd (fst p)) (d p)) pts.
Lemma der_integral pts (g : ipt -> R) d t0 (dg : ipt -> R) :
  (forall p, In p pts -> is_derive (fun t => g (mkI (fst (fst p)) (snd (fst p)) (snd p t))) t0 (dg (mkI (fst (fst p)) (snd (fst p)) (d p)))) ->
  is_derive (fun t => integral (points_at pts t) g) t0 (integral (points_d pts d) dg).
Proof.
  unfold integral, points_at, points_d. induction pts as [|p pts IH]; intros H; cbn [map fold_right].
  - apply (der_const 0).
  - apply (der_plus (fun t => fst (fst p) * g (mkI (fst (fst p)) (snd (fst p)) (snd p t)))).
    + apply der_scal. apply H. now left.
    + apply IH. intros; apply H. now right.
Qed.
Theorem C138_sensitivity : forall dim nn nodes y e n diagonal (pts : list ptf) (d : ptf -> mat R) acc (t0 : R) f jm z zm fs js (F : R -> arr R), (dim < 3)%nat -> init_local_elem dim nn nodes y = Ok e ->
  (forall p, In p pts -> (forall t : R, rows (snd p t) = 6%nat /\ cols (snd p t) = 6%nat) /\ rows (d p) = 6%nat /\ cols (d p) = 6%nat /\
     forall i j, (i < 6)%nat -> (j < 6)%nat -> is_derive (fun t : R => ent (snd p t) i j) t0 (ent (d p) i j)) ->
  len acc = (6 * n)%nat -> (forall k, cell z k = 0) ->
  inertial_residual dim n e diagonal (points_d pts d) acc false z zm = Ok (fs, js) ->
  (forall t, exists jm', inertial_residual dim n e diagonal (points_at pts t) acc false f jm = Ok (F t, jm')) ->
  forall k, (k < 6 * n)%nat -> is_derive (fun t => cell (F t) k) t0 (cell fs k).
Proof.
  intros dim nn nodes y e n diagonal pts d acc t0 f jm z zm fs js F HD HI HP LA HZ HS HF k Hk.
  destruct (local_runs dim e n HD acc LA) as (la & E1 & LLA).
  assert (SIXT : forall t q, In q (points_at pts t) -> six_by_six q).
  { intros t q Hq. unfold points_at in Hq. apply in_map_iff in Hq. destruct Hq as (p & <- & Hp). exact (proj1 (HP p Hp) t). }
  assert (SIXD : forall q, In q (points_d pts d) -> six_by_six q).
  { intros q Hq. unfold points_d in Hq. apply in_map_iff in Hq. destruct Hq as (p & <- & Hp). destruct (HP p Hp) as (_ & A & B & _). split; auto. }
  destruct (inertial_inv _ _ _ _ _ _ _ _ _ _ _ HD LA HS) as (la' & s & v & E1' & ES & EV & _ & _ & VS & _). rewrite E1 in E1'. injection E1' as <-.
  assert (HT : forall t, exists st vt, local_inertia n diagonal (points_at pts t) la false = Ok st /\ vector_to_global dim e (fst st) = Ok vt /\ forall k, cell (F t) k = cell f k + cell vt k).
  { intros t. destruct (HF t) as (jm' & E). destruct (inertial_inv _ _ _ _ _ _ _ _ _ _ _ HD LA E) as (la' & st & vt & E1' & EST & EVT & _ & _ & VT & _). rewrite E1 in E1'. injection E1' as <-. eauto. }
  (* local *)
  assert (LOC : len (fst s) = (6 * n)%nat /\ exists h : nat -> nat -> R -> R, (forall t st, local_inertia n diagonal (points_at pts t) la false = Ok st ->
      len (fst st) = (6 * n)%nat /\ forall c a, (c < 6)%nat -> (a < n)%nat -> at_ n (fst st) c a = h c a t) /\
      forall c a, (c < 6)%nat -> (a < n)%nat -> is_derive (h c a) t0 (at_ n (fst s) c a)).
  { destruct diagonal.
    - destruct pts as [|p pts]; [discriminate|]. cbn [points_d map] in ES, SIXD. fold (points_d pts d) in ES, SIXD.
      destruct (diagonal_ok n _ (points_d pts d) la false (SIXD _ (or_introl eq_refl)) LLA) as (s' & ES' & S1 & _ & _ & SV & _). rewrite ES in ES'. injection ES' as <-.
      split; [exact S1|].
      assert (VOL : forall t, volume (points_at (p :: pts) t) = volume (points_d (p :: pts) d)).
      { intros t. unfold volume, integral, points_at, points_d. clear. generalize (p :: pts). intros l. induction l as [|x l IH]; cbn [map fold_right]; [reflexivity|]. now rewrite IH. }
      exists (fun c a t => volume (points_d (p :: pts) d) / INR n * ent (snd p t) c c * at_ n la c a). split.
      + intros t st EST. assert (SX := SIXT t). cbn [points_at map] in EST, SX. fold (points_at pts t) in EST, SX.
        destruct (diagonal_ok n _ (points_at pts t) la false (SX _ (or_introl eq_refl)) LLA) as (st' & EST' & S1' & _ & _ & SV' & _). rewrite EST in EST'. injection EST' as <-.
        split; [exact S1'|]. intros c a Hc Ha. rewrite SV' by auto. rewrite <- (VOL t). reflexivity.
      + intros c a Hc Ha. rewrite SV by auto. destruct (HP p (or_introl eq_refl)) as (_ & _ & _ & DD).
        apply (der_ext (fun t => volume (points_d (p :: pts) d) / INR n * at_ n la c a * ent (snd p t) c c) _ t0 (volume (points_d (p :: pts) d) / INR n * at_ n la c a * ent (d p) c c)).
        * intros; ring.
        * fold (volume (points_d (p :: pts) d)). cbn [inert]. change (volume (mkI (fst (fst p)) (snd (fst p)) (d p) :: points_d pts d)) with (volume (points_d (p :: pts) d)). ring.
        * apply der_scal. now apply DD.
    - destruct (consistent_ok n (points_d pts d) la false SIXD LLA) as (s' & ES' & S1 & _ & _ & SV & _). rewrite ES in ES'. injection ES' as <-. split; [exact S1|].
      exists (fun c a t => integral (points_at pts t) (fun q => iphi q a * sum 6 (fun d => ent (inert q) c d * value n q la d))). split.
      + intros t st EST. destruct (consistent_ok n (points_at pts t) la false (SIXT t) LLA) as (st' & EST' & S1' & _ & _ & SV' & _). rewrite EST in EST'. injection EST' as <-. split; [exact S1'|exact SV'].
      + intros c a Hc Ha. rewrite SV by auto. apply der_integral. intros p Hp. cbn [iphi inert]. apply der_scal.
        apply (der_sum 6 (fun i t => ent (snd p t) c i * value n (mkI (fst (fst p)) (snd (fst p)) (snd p t)) la i)). intros i Hi. destruct (HP p Hp) as (_ & _ & _ & DD).
        unfold value. cbn [iphi]. set (w := sum n (fun a0 => snd (fst p) a0 * at_ n la i a0)).
        apply (der_ext (fun t => w * ent (snd p t) c i) _ t0 (w * ent (d p) c i)); [intros; ring|ring|]. apply der_scal. now apply DD. }
  destruct LOC as (S1 & h & HH & HDer).
  destruct (split6 n k Hk) as (c & a & Hc & Ha & ->). rewrite VS, HZ, Rplus_0_l. change (cell v (c * n + a)) with (at_ n v c a).
  destruct e as [e'|].
  - destruct (to_global_ok dim e' n _ HD S1) as (v' & EV' & _ & VV). rewrite EV in EV'. injection EV' as <-. rewrite VV by auto.
    apply (der_ext (fun t => cell f (c * n + a)%nat + sum 6 (fun i => lift (T e') c i * h i a t)) _ t0 (0 + sum 6 (fun i => lift (T e') c i * at_ n (fst s) i a))).
    + intros t. destruct (HT t) as (st & vt & EST & EVT & VT). destruct (HH t st EST) as (L & V). rewrite VT. f_equal.
      destruct (to_global_ok dim e' n _ HD L) as (w & EW & _ & WW). rewrite EVT in EW. injection EW as <-. change (cell vt (c * n + a)) with (at_ n vt c a). rewrite WW by auto.
      apply sum_ext. intros i Hi. now rewrite V.
    + ring.
    + apply (der_plus (fun _ => cell f (c * n + a)%nat)); [apply (der_const (cell f (c * n + a)%nat))|].
      apply (der_sum 6 (fun i t => lift (T e') c i * h i a t)). intros i Hi. apply der_scal. now apply HDer.
  - apply (none_global dim) in EV. subst v.
    apply (der_ext (fun t => cell f (c * n + a)%nat + h c a t) _ t0 (0 + at_ n (fst s) c a)).
    + intros t. destruct (HT t) as (st & vt & EST & EVT & VT). destruct (HH t st EST) as (L & V). rewrite VT. f_equal. apply (none_global dim) in EVT. subst vt. now apply V.
    + ring.
    + apply (der_plus (fun _ => cell f (c * n + a)%nat)); [apply (der_const (cell f (c * n + a)%nat))|now apply HDer].
Qed.
(** The diagonal mass takes the inertia matrix of the first point for the whole element. *)
Definition bar_i (r : R) : ipt := mkI 1 (fun _ => 1) (mkMat 6 6 (fun i j => r * kron i j)).
Theorem C138_diagonal_refuted : exists n qs rho f' jm', (forall q, In q qs -> rows (inert q) = 6%nat /\ cols (inert q) = 6%nat /\ sum n (iphi q) = 1 /\
     forall c d, (c < 3)%nat -> (d < 3)%nat -> ent (inert q) c d = rho q * kron c d) /\
  inertial_residual 1 n None true qs (uniform n (fun _ => 1)) true (fill 6 0) (mfill 6 6 0) = Ok (f', jm') /\
  work (vsub f' (fill 6 0)) (uniform n (fun _ => 1)) <> integral qs rho * inner (fun _ => 1) (fun _ => 1).
Proof.
  exists 1%nat, [bar_i 1; bar_i 3], (fun q => ent (inert q) 0 0)%nat.
  destruct (inertial_residual 1 1 None true [bar_i 1; bar_i 3] (uniform 1 (fun _ => 1)) true (fill 6 0) (mfill 6 6 0)) as [[f' jm']|] eqn:E; [|discriminate].
  exists f', jm'. split; [|split; [reflexivity|]].
  - intros q [<-|[<-|[]]]; repeat split; try (cbn; lra); intros c d _ _; unfold bar_i; cbn [inert ent]; unfold kron; cbn [Nat.eqb]; ring.
  - destruct (inertial_inv 1 1 None true _ (uniform 1 (fun _ => 1)) _ _ _ _ _ ltac:(lia) eq_refl E) as (la & s & v & E1 & E2 & E3 & _ & L2 & V & _).
    apply (none_local 1) in E1. apply (none_global 1) in E3. subst.
    destruct (diagonal_ok 1 (bar_i 1) [bar_i 3] (uniform 1 (fun _ => 1)) true (conj eq_refl eq_refl) eq_refl) as (s' & E2' & _ & _ & _ & SV & _). rewrite E2 in E2'. injection E2' as <-.
    assert (W : work (vsub f' (fill 6 0)) (uniform 1 (fun _ => 1)) = 6).
    { unfold work, vsub. cbn [len cell]. rewrite L2. cbn [len fill]. rewrite (sum_ext 6 _ (fun c => at_ 1 (fst s) c 0 * at_ 1 (uniform 1 (fun _ => 1)) c 0)).
      - rewrite (sum_ext 6 _ (fun c => if (c <? 3)%nat then 2 else 0)).
        + cbn. ring.
        + intros c Hc. rewrite SV by (auto; lia). rewrite uniform_at by (auto; lia). unfold volume, integral, bar_i. cbn [fold_right ijxw inert ent]. unfold kron. rewrite Nat.eqb_refl.
          destruct (c <? 3)%nat; cbn [INR]; field.
      - intros c Hc. rewrite V. unfold at_. rewrite Nat.mul_1_r, Nat.add_0_r. cbn [cell fill]. ring. }
    rewrite W. rewrite inner3. unfold integral, bar_i. cbn [fold_right ijxw inert ent]. unfold kron. cbn [Nat.eqb]. lra.
Qed.
(** A three-dimensional element has a 3x3 inertia matrix and no sensitivity of its own: this code refuses it. *)
Theorem C138_solid_sensitivity_refuted : forall n q qs acc req f jm, rows (inert q) = 3%nat -> cols (inert q) = 3%nat ->
  exists x, inertial_residual 3 n None false (q :: qs) acc req f jm = Fault x.
Proof.
  intros n q qs acc req f jm HR HC. unfold inertial_residual, set_solution. cbn [Nat.eqb bind].
  change (local_inertia n false (q :: qs) acc req) with (fold_left (cstep n acc req) qs (cstep n acc req (Ok (fill (6 * n) 0, mfill (6 * n) (6 * n) 0)) q)).
  assert (X : forall l x, fold_left (cstep n acc req) l (Fault x) = Fault x) by (induction l as [|z l IH]; intros x; [reflexivity|exact (IH x)]).
  replace (cstep n acc req (Ok (fill (6 * n) 0, mfill (6 * n) (6 * n) 0)) q) with (Fault (A := arr R * mat R) AssertFailed).
  - rewrite X. eexists. reflexivity.
  - unfold cstep. cbn [bind]. rewrite HR. reflexivity.
Qed.
Example C138_case : exists f' jm', inertial_residual 1 1 None false [bar_i 1; bar_i 3] (uniform 1 (fun _ => 1)) true (fill 6 0) (mfill 6 6 0) = Ok (f', jm').
Proof.
  destruct (consistent_ok 1 [bar_i 1; bar_i 3] (uniform 1 (fun _ => 1)) true) as (s & E & L1 & L2 & L3 & _); [intros q [<-|[<-|[]]]; split; reflexivity|reflexivity|].
  unfold inertial_residual, set_solution, vector_to_local, assert_. cbn [Nat.eqb Nat.ltb Nat.leb bind]. rewrite E. cbn [bind].
  unfold vector_to_global, matrix_to_global, assert_. cbn [Nat.ltb Nat.leb bind]. unfold vplus, assert_. cbn [len fill]. rewrite L1. cbn [Nat.mul Nat.add Nat.eqb bind].
  rewrite L2, L3. cbn [Nat.mul Nat.add Nat.eqb bind]. unfold mplus, assert_. cbn [rows cols mfill]. rewrite L2, L3. cbn [Nat.mul Nat.add Nat.eqb bind andb]. eexists. eexists. reflexivity.
Qed.

(** ** C139: linearised residual *)
(** For every element the temporary vectors have the wrong size, and the call fails. *)
Theorem C139_linearized_refuted : forall dim e iv im delta req f j, (0 < len f)%nat -> len iv = len f ->
  (forall k, set_solution dim e delta <> Fault k) ->
  linearized_internal_residual dim e iv im delta req f j = Fault AssertFailed.
Proof.
  intros dim e iv im delta req f j HF LI HS. unfold linearized_internal_residual. destruct (set_solution dim e delta) as [ld|k]; [|now contradiction (HS k)]. cbn [bind].
  unfold add_internal, vplus, assert_. cbn [len fill]. destruct (Nat.eqb_spec (6 * len f) (len iv)); [lia|]. reflexivity.
Qed.
Example C139_case : len (fill 6 0) = 6%nat /\ forall k, set_solution 1 None (fill 6 0) <> Fault k.
Proof. split; [reflexivity|]. intros k. unfold set_solution, vector_to_local, assert_. cbn. discriminate. Qed.

Print Assumptions C135_axes. Print Assumptions C135_plate. Print Assumptions C135_beam. Print Assumptions C135_runs_plate. Print Assumptions C135_runs_beam.
Print Assumptions C135_x_beam_refuted. Print Assumptions C136_points. Print Assumptions C136_vectors. Print Assumptions C136_components. Print Assumptions C136_none.
Print Assumptions C137_vectors. Print Assumptions C137_round_trip. Print Assumptions C137_work. Print Assumptions C137_matrix. Print Assumptions C137_sizes. Print Assumptions C137_jacobian.
Print Assumptions C138_mass. Print Assumptions C138_power. Print Assumptions C138_symmetric. Print Assumptions C138_total. Print Assumptions C138_sensitivity.
Print Assumptions C138_diagonal_refuted. Print Assumptions C138_solid_sensitivity_refuted. Print Assumptions C139_linearized_refuted.
