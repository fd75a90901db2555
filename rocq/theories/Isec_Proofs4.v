(** Inversion of init, classification, ids, reference coordinates. *)
From Coq Require Import List Arith NArith ZArith Lia Bool Reals Lra Psatz.
From Verif Require Import Base BaseLemmas RBool Filt_Model Isec_Model Isec_Spec Isec_Proofs Isec_Proofs2 Isec_Proofs3.
Import ListNotations.
Open Scope nat_scope.

Lemma big_pos : (tol < 10 ^ 12)%R.
Proof.
  apply Rle_lt_trans with 1%R; [apply tol_le1|]. apply Rlt_pow_R1; [lra|lia].
Qed.

(** ** The scan over the nodes *)
Lemma scan_min_gt v t l : forall s, (t < sc_min (fold_left (scan_node v) l s))%R <->
  (t < sc_min s)%R /\ (forall i, In i l -> (t < v i)%R).
Proof.
  induction l as [|a l IH]; intros s; cbn [fold_left].
  - split; [intros H; split; auto; intros i []|intros [H _]; auto].
  - rewrite IH. unfold scan_node at 1. cbn [sc_min]. rb.
    + split.
      * intros [A B]. split; [lra|]. intros i [<-|Hi]; auto.
      * intros [A B]. split; [apply B; left; auto|]. intros i Hi; apply B; right; auto.
    + split.
      * intros [A B]. split; [lra|]. intros i [<-|Hi]; auto. lra.
      * intros [A B]. split; auto. intros i Hi; apply B; right; auto.
Qed.
Lemma scan_max_lt v t l : forall s, (sc_max (fold_left (scan_node v) l s) < t)%R <->
  (sc_max s < t)%R /\ (forall i, In i l -> (v i < t)%R).
Proof.
  induction l as [|a l IH]; intros s; cbn [fold_left].
  - split; [intros H; split; auto; intros i []|intros [H _]; auto].
  - rewrite IH. unfold scan_node at 1. cbn [sc_max]. rb.
    + split.
      * intros [A B]. split; [lra|]. intros i [<-|Hi]; auto.
      * intros [A B]. split; [apply B; left; auto|]. intros i Hi; apply B; right; auto.
    + split.
      * intros [A B]. split; [lra|]. intros i [<-|Hi]; auto. lra.
      * intros [A B]. split; auto. intros i Hi; apply B; right; auto.
Qed.
Lemma scan_cnt v l : forall s, sc_n (fold_left (scan_node v) l s) =
  sc_n s + length (filter (fun i => (i <? 4) && on_ls (v i)) l).
Proof.
  induction l as [|a l IH]; intros s; cbn [fold_left filter]; [cbn; lia|].
  rewrite IH. unfold scan_node at 1. cbn [sc_n]. destruct ((a <? 4) && on_ls (v a)); cbn [length]; lia.
Qed.

Section Scan.
Variables (v : nat -> R) (n : nat).
Let s := scan_nodes v n.
Lemma min_gt t : (t < 10 ^ 12)%R -> (t < sc_min s)%R <-> (forall i, i < n -> (t < v i)%R).
Proof.
  intros T. unfold s, scan_nodes. rewrite scan_min_gt. cbn [sc_min]. split.
  - intros [_ H] i Hi. apply H. apply in_seq. lia.
  - intros H. split; auto. intros i Hi. apply in_seq in Hi. apply H. lia.
Qed.
Lemma max_lt t : (- 10 ^ 12 < t)%R -> (sc_max s < t)%R <-> (forall i, i < n -> (v i < t)%R).
Proof.
  intros T. unfold s, scan_nodes. rewrite scan_max_lt. cbn [sc_max]. split.
  - intros [_ H] i Hi. apply H. apply in_seq. lia.
  - intros H. split; auto. intros i Hi. apply in_seq in Hi. apply H. lia.
Qed.
Lemma min_le i : i < n -> (sc_min s <= v i)%R.
Proof.
  intros Hi. destruct (Rle_lt_dec (sc_min s) (v i)); auto.
  pose proof (proj1 (scan_min_gt v (v i) (seq 0 n) _) r) as [_ H]. specialize (H i). 
  assert (In i (seq 0 n)) by (apply in_seq; lia). specialize (H H0). lra.
Qed.
Lemma max_ge i : i < n -> (v i <= sc_max s)%R.
Proof.
  intros Hi. destruct (Rle_lt_dec (v i) (sc_max s)); auto.
  pose proof (proj1 (scan_max_lt v (v i) (seq 0 n) _) r) as [_ H]. specialize (H i).
  assert (In i (seq 0 n)) by (apply in_seq; lia). specialize (H H0). lra.
Qed.
End Scan.
Lemma scan_n4 v n : n = 4 \/ n = 9 -> sc_n (scan_nodes v n) = nz (fun i => cl (v i)).
Proof.
  intros H. unfold scan_nodes, nz. rewrite scan_cnt. cbn [sc_n].
  destruct H; subst; cbn [seq filter]; change (0 <? 4) with true; change (1 <? 4) with true;
  change (2 <? 4) with true; change (3 <? 4) with true;
  repeat match goal with |- context [?k <? 4] => change (k <? 4) with false end; cbn [andb];
  rewrite !on_ls_cl; reflexivity.
Qed.

(** ** Inversion *)
Lemma quad_n e : quad e -> n_nodes e = 4 \/ n_nodes e = 9.
Proof. unfold n_nodes. intros [H|H]; rewrite H; auto. Qed.
Definition subdom_of (e : elem) : N := match e_type e with QUAD4 => e_sub e | _ => 0%N end.
Lemma init_quad phi e mxe mxn : quad e -> init phi e mxe mxn = init_ref phi e (subdom_of e) mxe mxn.
Proof. unfold init, subdom_of. intros [H|H]; rewrite H; auto. Qed.
Lemma init_ok_quad phi e mxe mxn r : init phi e mxe mxn = Ok r -> quad e.
Proof. unfold init, quad. destruct (e_type e); auto. discriminate. Qed.

Lemma colinear_some v l i : colinear v l = Some i -> In i l /\ on_ls (v i) = true /\ on_ls (v ((i + 1) mod 4)) = true.
Proof.
  induction l as [|a l IH]; cbn [colinear]; [discriminate|].
  destruct (on_ls (v a) && on_ls (v ((a + 1) mod 4))) eqn:E.
  - intros H; injection H as <-. apply andb_prop in E. cbn. tauto.
  - intros H. destruct (IH H) as (A & B). cbn. tauto.
Qed.
Lemma colinear_none v : colinear v (seq 0 4) = None <-> nocol (fun i => cl (v i)) = true.
Proof.
  unfold nocol. generalize (seq 0 4). intros l. induction l as [|a l IH]; cbn [colinear forallb]; [tauto|].
  rewrite <- !on_ls_cl. destruct (on_ls (v a) && on_ls (v ((a + 1) mod 4))); cbn [negb andb].
  - split; discriminate.
  - exact IH.
Qed.

Definition xi_of (phi : pt -> R) (e : elem) (i : nat) : R :=
  if side_hit (fun i => phi (e_pt e i)) i then edge_xi phi (e_pt e i) (e_pt e ((i + 1) mod 4)) else 0%R.

(** What a successful search for sub-elements leaves. *)
Record cut (phi : pt -> R) (e : elem) (sd mxe mxn : N) (r : result) (m : mode) (rs rn : nat) (l : list sub) : Prop := {
  c_mode : r_mode r = m;
  c_in : In (m, rs, rn) occurring;
  c_subs : subs_of m rs rn = Ok l;
  c_rsubs : r_subs r = l;
  c_made : r_made r = made_of e (xi_of phi e) mxn m rs;
  c_flags : r_onpos r = false /\ r_onneg r = false;
  c_ids : r_ids r = map (fun i => wrap (mxe + e_id e * max_elem_divs + N.of_nat i)) (seq 0 (length l));
  c_sub : r_subdom r = map (fun _ => sd) l;
  c_lists : let p := isP (cl (phi (e_pt e (ref_corner_of m rs rn)))) in
            r_pos r = map Some (if p then fst (split_of m rs rn) else snd (split_of m rs rn)) /\
            r_neg r = map Some (if p then snd (split_of m rs rn) else fst (split_of m rs rn));
  c_sides : forall k, In k (sides_of m rs) ->
     (phi (e_pt e (k mod 4)) * phi (e_pt e ((k + 1) mod 4)) < 0)%R /\ side_hit (fun i => phi (e_pt e i)) (k mod 4) = true;
  c_corners : corners_ok (fun i => cl (phi (e_pt e i))) m rs rn = true \/
     (m = OPPOSITE_NODES /\ mixed (fun i => cl (phi (e_pt e i))) = false);
  c_find : nocol (fun i => cl (phi (e_pt e i))) = true /\
     find_mode (nds (fun i => cl (phi (e_pt e i)))) (sds (fun i => cl (phi (e_pt e i))))
       (rltb 0%R (phi (centroid e) * phi (e_pt e 0))%R) = Ok (m, rs, rn) }.

Lemma opp_neg x y : opp (cl x) (cl y) = true -> (x * y < 0)%R.
Proof.
  pose proof tol_pos. destruct (cl x) eqn:A, (cl y) eqn:B; try discriminate; intros _.
  - apply cl_Ps in A. apply cl_Ng in B. nra.
  - apply cl_Ng in A. apply cl_Ps in B. nra.
Qed.
Lemma mod_succ k : ((k mod 4) + 1) mod 4 = (k + 1) mod 4.
Proof. rewrite Nat.add_mod_idemp_l by lia. reflexivity. Qed.

Lemma cut_inv phi e sd mxe mxn r : nocol (fun i => cl (phi (e_pt e i))) = true ->
  find_quad4 phi e sd mxe mxn = Ok r -> exists m rs rn l, cut phi e sd mxe mxn r m rs rn l.
Proof.
  intros NC H. unfold find_quad4 in H. cbv zeta in H.
  set (v := fun i => phi (e_pt e i)) in *.
  set (mid := rltb 0%R _) in H.
  rewrite (find_mode_ext (node_hit v) (nds (fun i => cl (v i))) (side_hit v) (sds (fun i => cl (v i)))) in H.
  2: { intros; apply node_hit_cl. }
  2: { intros; apply side_hit_cl. }
  destruct (find_mode _ _ mid) as [[[m rs] rn]|] eqn:F; cbn [bind] in H; try discriminate.
  destruct (through m) eqn:T; cbn [assert_] in H; [|discriminate].
  destruct (check_facts (fun i => cl (v i)) mid m rs rn NC F T) as (IN & SD & RC & CO).
  destruct (subs_of m rs rn) as [l|] eqn:S; cbn [bind] in H; try discriminate.
  destruct (length l <=? N.to_nat max_elem_divs) eqn:L; cbn [assert_] in H; [|discriminate].
  assert (P : match m with OPPOSITE_NODES => rltb 0 (v (rn + 1)) | _ => rltb 0 (v (rs mod 4)) end
      = isP (cl (phi (e_pt e (ref_corner_of m rs rn))))).
  { rewrite <- pos_cl by exact RC. destruct m; reflexivity. }
  match type of H with context [if ?b then map Some (fst _) else _] =>
    change b with (match m with OPPOSITE_NODES => rltb 0 (v (rn + 1)) | _ => rltb 0 (v (rs mod 4)) end) in H end.
  rewrite P in H. injection H as <-. exists m, rs, rn, l. constructor; cbn [r_mode r_subs r_made r_onpos r_onneg r_ids r_subdom r_pos r_neg]; auto.
  - cbv zeta. destruct (isP _); auto.
  - intros k Hk. specialize (SD k Hk). unfold sds in SD. rewrite mod_succ in SD.
    split; [apply opp_neg, SD|]. rewrite side_hit_cl, mod_succ. exact SD.
Qed.

(** All outcomes of a successful init. *)
Inductive inv (phi : pt -> R) (e : elem) (mxe mxn : N) (r : result) : Prop :=
| Inv_pos : r_mode r = NO_INTERSECTION -> r_onpos r = true -> r_onneg r = false -> r_pos r = [None] -> r_neg r = [] ->
    r_subs r = [] -> r_made r = [] -> r_ids r = [] -> r_subdom r = [] ->
    (forall i, i < n_nodes e -> (tol < phi (e_pt e i))%R) -> inv phi e mxe mxn r
| Inv_neg : r_mode r = NO_INTERSECTION -> r_onpos r = false -> r_onneg r = true -> r_pos r = [] -> r_neg r = [None] ->
    r_subs r = [] -> r_made r = [] -> r_ids r = [] -> r_subdom r = [] ->
    (forall i, i < n_nodes e -> (phi (e_pt e i) < - tol)%R) -> inv phi e mxe mxn r
| Inv_whole : (r_mode r = THROUGH_NODE \/ r_mode r = COLINEAR_EDGE) -> r_onpos r = false -> r_onneg r = false ->
    r_subs r = [] -> r_made r = [] -> r_ids r = [] -> r_subdom r = [] ->
    ~ (forall i, i < n_nodes e -> (tol < phi (e_pt e i))%R) ->
    ~ (forall i, i < n_nodes e -> (phi (e_pt e i) < - tol)%R) ->
    ((r_pos r = [None] /\ r_neg r = [] /\ (exists i, i < n_nodes e /\ (tol < phi (e_pt e i))%R) /\
      (r_mode r = THROUGH_NODE -> forall i, i < n_nodes e -> (- tol <= phi (e_pt e i))%R)) \/
     (r_pos r = [] /\ r_neg r = [None] /\ (forall i, i < n_nodes e -> (phi (e_pt e i) <= tol)%R)) \/
     (r_pos r = [] /\ r_neg r = [] /\ r_mode r = COLINEAR_EDGE /\ (forall i, i < n_nodes e -> (phi (e_pt e i) = tol)%R))) ->
    (r_mode r = COLINEAR_EDGE -> r_edge r < 4 /\ (Rabs (phi (e_pt e (r_edge r))) <= tol)%R /\
       (Rabs (phi (e_pt e ((r_edge r + 1) mod 4))) <= tol)%R) ->
    inv phi e mxe mxn r
| Inv_cut : forall m rs rn l, cut phi e (subdom_of e) mxe mxn r m rs rn l ->
    ~ (forall i, i < n_nodes e -> (tol < phi (e_pt e i))%R) ->
    ~ (forall i, i < n_nodes e -> (phi (e_pt e i) < - tol)%R) -> inv phi e mxe mxn r.

Lemma neg_big : (- 10 ^ 12 < - tol)%R.
Proof. pose proof big_pos. lra. Qed.
Lemma neg_big' : (- 10 ^ 12 < tol)%R.
Proof. pose proof tol_pos. pose proof neg_big. lra. Qed.

Lemma init_inv phi e mxe mxn r : init phi e mxe mxn = Ok r -> inv phi e mxe mxn r.
Proof.
  intros H. pose proof (init_ok_quad _ _ _ _ _ H) as Q. rewrite init_quad in H by auto.
  pose proof (quad_n e Q) as QN. pose proof tol_pos as TP.
  unfold init_ref in H. cbv zeta in H.
  set (v := fun i => phi (e_pt e i)) in *. set (n := n_nodes e) in *. set (s := scan_nodes v n) in *.
  pose proof (fun i => min_le v n i) as ML. pose proof (fun i => max_ge v n i) as MG. fold s in ML, MG.
  pose proof (min_gt v n tol big_pos) as MT. fold s in MT.
  pose proof (max_lt v n (- tol) neg_big) as XT. fold s in XT.
  pose proof (max_lt v n tol neg_big') as XU. fold s in XU.
  destruct (rltb tol (sc_min s)) eqn:E1.
  { injection H as <-. apply rltb_true in E1. apply Inv_pos; auto. apply MT; auto. }
  apply rltb_false in E1.
  destruct (rltb (sc_max s) (- tol)) eqn:E2.
  { injection H as <-. apply rltb_true in E2. apply Inv_neg; auto. apply XT; auto. }
  apply rltb_false in E2.
  assert (NP : ~ (forall i, i < n -> (tol < v i)%R)) by (intros A; apply MT in A; lra).
  assert (NN : ~ (forall i, i < n -> (v i < - tol)%R)) by (intros A; apply XT in A; lra).
  assert (EX : (tol < sc_max s)%R -> exists i, i < n /\ (tol < v i)%R).
  { intros A. assert (B : ~ (forall i, i < n -> (v i <= tol)%R)).
    { intros B. pose proof (max_lt v n (sc_max s)) as C. fold s in C.
      assert (D : (sc_max s < sc_max s)%R); [|lra].
      apply C; [pose proof neg_big'; lra|]. intros i Hi. specialize (B i Hi). lra. }
    destruct (Classical_Prop.classic (exists i, i < n /\ (tol < v i)%R)) as [X|X]; auto.
    exfalso. apply B. intros i Hi. destruct (Rle_lt_dec (v i) tol); auto. exfalso; apply X; exists i; auto. }
  destruct ((sc_n s =? 1) && negb _) eqn:E3 in H.
  - apply andb_prop in E3. destruct E3 as [E3 E4]. apply negb_true_iff in E4. apply rltb_false in E4.
    destruct (rleb (sc_min s) tol && rleb (sc_max s) tol) eqn:E5.
    + apply andb_prop in E5. destruct E5 as [_ E5]. apply rleb_true in E5.
      injection H as <-. apply Inv_whole; cbn; auto; [|discriminate].
      right; left. repeat split; auto. intros i Hi. specialize (MG i Hi). unfold v in *. lra.
    + destruct (rltb tol (sc_max s)) eqn:E6; cbn [assert_] in H; [|discriminate].
      apply rltb_true in E6. injection H as <-. apply Inv_whole; cbn; auto; [|discriminate].
      left. repeat split; auto.
      intros _ i Hi. specialize (ML i Hi). destruct (Rle_lt_dec (- tol) (sc_min s)) as [A|A]; [unfold v in *; lra|].
      exfalso. rewrite (Rabs_left (sc_min s)), (Rabs_right (sc_max s)) in E4 by lra.
      revert E4. rb; intros; try lra. nra.
  - clear E3. destruct (colinear v (seq 0 4)) as [i|] eqn:E4.
    + apply colinear_some in E4. destruct E4 as (I1 & I2 & I3). apply in_seq in I1.
      unfold on_ls in I2, I3. apply rleb_true in I2, I3.
      destruct (rltb tol (sc_max s)) eqn:E6.
      * apply rltb_true in E6. injection H as <-. apply Inv_whole; cbn; auto; [|intros; repeat split; auto; lia].
        left. repeat split; auto. discriminate.
      * apply rltb_false in E6. destruct (rltb (sc_min s) tol) eqn:E7.
        -- injection H as <-. apply Inv_whole; cbn; auto; [|intros; repeat split; auto; lia].
           right; left. repeat split; auto. intros j Hj. specialize (MG j Hj). unfold v in *. lra.
        -- apply rltb_false in E7. injection H as <-. apply Inv_whole; cbn; auto; [|intros; repeat split; auto; lia].
           right; right. repeat split; auto. intros j Hj. specialize (MG j Hj). specialize (ML j Hj). unfold v in *. lra.
    + apply colinear_none in E4. destruct (cut_inv _ _ _ _ _ _ E4 H) as (m & rs & rn & l & C).
      eapply Inv_cut; eauto.
Qed.

(** ** Nodes made *)
Lemma cut_xi phi e sd mxe mxn r m rs rn l : cut phi e sd mxe mxn r m rs rn l ->
  forall k, In k (sides_of m rs) ->
   xi_of phi e (k mod 4) = edge_xi phi (e_pt e (k mod 4)) (e_pt e ((k + 1) mod 4)) /\ (0 < xi_of phi e (k mod 4) < 1)%R.
Proof.
  intros C k Hk. destruct (c_sides _ _ _ _ _ _ _ _ _ _ C k Hk) as (A & B).
  unfold xi_of. rewrite B, mod_succ. split; auto. apply edge_xi_point. auto.
Qed.
Lemma xi_01 phi e k : (0 <= xi_of phi e k <= 1)%R.
Proof.
  unfold xi_of. destruct (side_hit _ k) eqn:H; [|lra].
  rewrite side_hit_cl in H. apply opp_neg in H. pose proof (edge_xi_point phi _ _ H). lra.
Qed.

Lemma made_on_pt e id k x : m_pt (make_on e id k x) = along (e_pt e (k mod 4)) (e_pt e ((k + 1) mod 4)) x.
Proof. unfold make_on; cbn [m_pt]. apply along_padd. Qed.
Lemma made_back_pt e id k x : m_pt (make_back e id k x) = along (e_pt e (k mod 4)) (e_pt e ((k + 1) mod 4)) (1 - x).
Proof. unfold make_back; cbn [m_pt]. apply along_back. Qed.

(** Every made node is a node on a cut side at the location found there, or the hanging node. *)
Lemma made_cases e xi mxn m rs nd : In nd (made_of e xi mxn m rs) -> In m [ADJACENT_EDGES; OPPOSITE_EDGES; NODE_AND_EDGE; NODE_AND_TWO_EDGES; TWO_ADJACENT_EDGES] ->
  (exists k, In k (sides_of m rs) /\ exists id, nd = make_on e id k (xi (k mod 4))) \/
  (m = ADJACENT_EDGES /\ exists id, nd = make_back e id (rs + 2) (xi (rs mod 4))).
Proof.
  intros H M. destruct m; cbn in M; try (exfalso; intuition discriminate); cbn [made_of In sides_of] in *;
  repeat (destruct H as [H|H]); subst; try contradiction;
  solve [left; eexists; (split; [|eexists; reflexivity]); auto 6 | right; split; auto; eexists; reflexivity].
Qed.
Lemma made_mode e xi mxn m rs nd : In nd (made_of e xi mxn m rs) -> through m = true ->
  In m [ADJACENT_EDGES; OPPOSITE_EDGES; NODE_AND_EDGE; NODE_AND_TWO_EDGES; TWO_ADJACENT_EDGES].
Proof. destruct m; cbn; auto 8; intros; try discriminate; try contradiction. Qed.

(** ** Values without ties: the whole classification of a QUAD4 *)
Lemma noties_spec v : noties (fun i => cl (v i)) = true <-> (forall i, i < 4 -> Rabs (v i) <> tol).
Proof.
  unfold noties. rewrite forallb_forall. split.
  - intros H i Hi E. apply cl_Tie in E. specialize (H i). rewrite E in H.
    assert (false = true) by (apply H; apply in_seq; lia). discriminate.
  - intros H i Hi. apply in_seq in Hi. destruct (cl (v i)) eqn:E; auto. apply cl_Tie in E.
    exfalso. apply (H i); auto; lia.
Qed.
Lemma allP_spec v : allP (fun i => cl (v i)) = true <-> (forall i, i < 4 -> (tol < v i)%R).
Proof.
  unfold allP. rewrite forallb_forall. split.
  - intros H i Hi. apply cl_Ps. specialize (H i). destruct (cl (v i)); auto;
    (assert (false = true) by (apply H; apply in_seq; lia); discriminate).
  - intros H i Hi. apply in_seq in Hi. assert (E : cl (v i) = Ps) by (apply cl_Ps, H; lia). rewrite E; auto.
Qed.
Lemma allN_spec v : allN (fun i => cl (v i)) = true <-> (forall i, i < 4 -> (v i < - tol)%R).
Proof.
  unfold allN. rewrite forallb_forall. split.
  - intros H i Hi. apply cl_Ng. specialize (H i). destruct (cl (v i)); auto;
    (assert (false = true) by (apply H; apply in_seq; lia); discriminate).
  - intros H i Hi. apply in_seq in Hi. assert (E : cl (v i) = Ng) by (apply cl_Ng, H; lia). rewrite E; auto.
Qed.
Lemma exP_spec v : existsb (fun i => isP (cl (v i))) (seq 0 4) = true <-> (exists i, i < 4 /\ (tol < v i)%R).
Proof.
  rewrite existsb_exists. split.
  - intros (i & Hi & H). apply in_seq in Hi. exists i. split; [lia|]. apply cl_Ps. destruct (cl (v i)); auto; discriminate.
  - intros (i & Hi & H). exists i. split; [apply in_seq; lia|]. apply cl_Ps in H. rewrite H; auto.
Qed.
Lemma exN_spec v : existsb (fun i => isN (cl (v i))) (seq 0 4) = true <-> (exists i, i < 4 /\ (v i < - tol)%R).
Proof.
  rewrite existsb_exists. split.
  - intros (i & Hi & H). apply in_seq in Hi. exists i. split; [lia|]. apply cl_Ng. destruct (cl (v i)); auto; discriminate.
  - intros (i & Hi & H). exists i. split; [apply in_seq; lia|]. apply cl_Ng in H. rewrite H; auto.
Qed.

(** The scan of a QUAD4 without ties, in terms of the classes. *)
Lemma scan_classes v : noties (fun i => cl (v i)) = true ->
  let s := scan_nodes v 4 in let c := fun i => cl (v i) in
  rltb tol (sc_min s) = allP c /\ rltb (sc_max s) (- tol) = allN c /\
  rltb tol (sc_max s) = existsb (fun i => isP (c i)) (seq 0 4) /\
  (allP c = false -> allN c = false ->
   rltb ((if rltb (Rabs (sc_min s)) tol then 0 else sc_min s) *
         (if rltb (Rabs (sc_max s)) tol then 0 else sc_max s)) 0 = mixed c).
Proof.
  intros NT s c. pose proof (proj1 (noties_spec v) NT) as TI. pose proof tol_pos as TP. pose proof big_pos as BP.
  assert (MG : forall t, (t < 10 ^ 12)%R -> (t < sc_min s)%R <-> (forall i, i < 4 -> (t < v i)%R)) by (intros; apply min_gt; auto).
  assert (XL : forall t, (- 10 ^ 12 < t)%R -> (sc_max s < t)%R <-> (forall i, i < 4 -> (v i < t)%R)) by (intros; apply max_lt; auto).
  assert (ML : forall i, i < 4 -> (sc_min s <= v i)%R) by (intros; apply min_le; auto).
  assert (XG : forall i, i < 4 -> (v i <= sc_max s)%R) by (intros; apply max_ge; auto).
  assert (NP : forall i, i < 4 -> (v i <= tol)%R -> (v i < tol)%R).
  { intros i Hi A. specialize (TI i Hi). destruct (Rle_lt_or_eq_dec _ _ A); auto.
    exfalso; apply TI. rewrite e. apply Rabs_right. lra. }
  assert (NN : forall i, i < 4 -> (- tol <= v i)%R -> (- tol < v i)%R).
  { intros i Hi A. specialize (TI i Hi). destruct (Rle_lt_or_eq_dec _ _ A); auto.
    exfalso; apply TI. rewrite <- e. rewrite Rabs_Ropp. apply Rabs_right. lra. }
  assert (A1 : rltb tol (sc_min s) = allP c).
  { destruct (allP c) eqn:E.
    - apply rltb_true. apply MG; auto. apply (proj1 (allP_spec v) E).
    - apply rltb_false. destruct (Rle_lt_dec (sc_min s) tol) as [A|A]; auto. exfalso.
      pose proof (proj1 (MG tol BP) A) as A'. pose proof (proj2 (allP_spec v) A'). unfold c in E. congruence. }
  assert (A2 : rltb (sc_max s) (- tol) = allN c).
  { destruct (allN c) eqn:E.
    - apply rltb_true. apply XL; [lra|]. apply (proj1 (allN_spec v) E).
    - apply rltb_false. destruct (Rle_lt_dec (- tol) (sc_max s)) as [A|A]; auto. exfalso.
      pose proof (proj1 (XL (- tol)%R neg_big) A) as A'. pose proof (proj2 (allN_spec v) A'). unfold c in E. congruence. }
  assert (XP : (exists i, i < 4 /\ (tol < v i)%R) \/ (sc_max s < tol)%R).
  { destruct (existsb (fun i => isP (c i)) (seq 0 4)) eqn:E.
    - left. apply (proj1 (exP_spec v) E).
    - right. apply XL; [lra|]. intros i Hi. apply NP; auto. destruct (Rle_lt_dec (v i) tol) as [A|A]; auto. exfalso.
      assert (existsb (fun i => isP (c i)) (seq 0 4) = true) by (apply exP_spec; eauto). congruence. }
  assert (XN : (exists i, i < 4 /\ (v i < - tol)%R) \/ (- tol < sc_min s)%R).
  { destruct (existsb (fun i => isN (c i)) (seq 0 4)) eqn:E.
    - left. apply (proj1 (exN_spec v) E).
    - right. apply MG; [lra|]. intros i Hi. apply NN; auto. destruct (Rle_lt_dec (- tol) (v i)) as [A|A]; auto. exfalso.
      assert (existsb (fun i => isN (c i)) (seq 0 4) = true) by (apply exN_spec; eauto). congruence. }
  assert (A3 : rltb tol (sc_max s) = existsb (fun i => isP (c i)) (seq 0 4)).
  { destruct XP as [X|X].
    - pose proof (proj2 (exP_spec v) X) as X'. change (existsb (fun i => isP (c i)) (seq 0 4) = true) in X'.
      rewrite X'. apply rltb_true. destruct X as (i & Hi & A). specialize (XG i Hi). lra.
    - destruct (existsb _ _) eqn:E.
      + pose proof (proj1 (exP_spec v) E) as (i & Hi & A). specialize (XG i Hi). lra.
      + apply rltb_false. lra. }
  repeat split; auto.
  intros P N. assert (LE : (sc_min s <= sc_max s)%R) by (specialize (ML 0 ltac:(lia)); specialize (XG 0 ltac:(lia)); lra).
  rewrite P in A1. rewrite N in A2. apply rltb_false in A1, A2.
  unfold mixed. rewrite <- A3.
  destruct XP as [(i & Hi & X)|X].
  - pose proof (XG i Hi). rewrite (Rabs_right (sc_max s)) by lra.
    replace (rltb tol (sc_max s)) with true by (symmetry; apply rltb_true; lra). cbn [andb].
    destruct XN as [Y|Y].
    + assert (E : existsb (fun i => isN (c i)) (seq 0 4) = true) by (apply exN_spec; auto). rewrite E.
      destruct Y as (j & Hj & B). pose proof (ML j Hj).
      rewrite (Rabs_left (sc_min s)) by lra. apply rltb_true. rb; try lra. nra.
    + assert (E : existsb (fun i => isN (c i)) (seq 0 4) = false).
      { destruct (existsb (fun i => isN (c i)) (seq 0 4)) eqn:E; auto. pose proof (proj1 (exN_spec v) E) as (j & Hj & B). specialize (ML j Hj). lra. }
      rewrite E. apply rltb_false. rb; try lra. unfold Rabs in *. destruct (Rcase_abs (sc_min s)); try lra. nra.
  - replace (rltb tol (sc_max s)) with false by (symmetry; apply rltb_false; lra). cbn [andb].
    assert (MX : (Rabs (sc_max s) < tol)%R).
    { assert (- tol < sc_max s)%R.
      { destruct (Rle_lt_or_eq_dec _ _ A2); auto. exfalso.
        assert (F : forall i, i < 4 -> (v i < - tol)%R).
        { intros i Hi. destruct (Rle_lt_dec (- tol) (v i)) as [A|A]; auto.
          pose proof (NN i Hi A). specialize (XG i Hi). lra. }
        pose proof (proj2 (allN_spec v) F). unfold c in N. congruence. }
      apply Rabs_def1; lra. }
    replace (rltb (Rabs (sc_max s)) tol) with true by (symmetry; apply rltb_true; auto).
    apply rltb_false. lra.
Qed.

(** What init does with a QUAD4 without ties, in terms of the classes. *)
Definition init_cls (phi : pt -> R) (e : elem) (mxe mxn : N) (c : nat -> cls) (k : nat) : outcome result :=
  let whole m p q pos neg i := Ok (mkRes m p q pos neg [] [] [] [] k i) in
  if allP c then whole NO_INTERSECTION true false [None] [] 0
  else if allN c then whole NO_INTERSECTION false true [] [None] 0
  else if (nz c =? 1) && negb (mixed c) then
    if existsb (fun i => isP (c i)) (seq 0 4) then whole THROUGH_NODE false false [None] [] 0
    else whole THROUGH_NODE false false [] [None] 0
  else match colinear (fun i => phi (e_pt e i)) (seq 0 4) with
       | Some i => if existsb (fun i => isP (c i)) (seq 0 4) then whole COLINEAR_EDGE false false [None] [] i
                   else whole COLINEAR_EDGE false false [] [None] i
       | None => find_quad4 phi e (e_sub e) mxe mxn
       end.
Lemma init_noties phi e mxe mxn : e_type e = QUAD4 ->
  noties (fun i => cl (phi (e_pt e i))) = true ->
  exists k, init phi e mxe mxn = init_cls phi e mxe mxn (fun i => cl (phi (e_pt e i))) k.
Proof.
  intros T NT. set (v := fun i => phi (e_pt e i)) in *. set (c := fun i => cl (v i)).
  change (noties c = true) in NT.
  exists (sc_last (scan_nodes v 4)).
  destruct (scan_classes v NT) as (A1 & A2 & A3 & A4). cbv zeta in A1, A2, A3, A4. fold c in A1, A2, A4.
  change (rltb tol (sc_max (scan_nodes v 4)) = existsb (fun i => isP (c i)) (seq 0 4)) in A3.
  unfold init. rewrite T. unfold init_ref, n_nodes. rewrite T. cbv zeta. fold v.
  unfold init_cls. cbv zeta. fold v. change (fun i => cl (phi (e_pt e i))) with c.
  change (existsb (fun i => isP (cl (phi (e_pt e i)))) (seq 0 4)) with (existsb (fun i => isP (c i)) (seq 0 4)).
  rewrite A1, A2. destruct (allP c) eqn:P; [reflexivity|].
  destruct (allN c) eqn:N; [reflexivity|].
  rewrite A4, A3, (scan_n4 v 4) by auto. fold c. apply rltb_false in A1.
  destruct ((nz c =? 1) && negb (mixed c)) eqn:E1.
  { replace (rleb (sc_min (scan_nodes v 4)) tol) with true by (symmetry; apply rleb_true; auto). cbn [andb].
    destruct (existsb (fun i => isP (c i)) (seq 0 4)) eqn:E3.
    - apply rltb_true in A3. replace (rleb (sc_max (scan_nodes v 4)) tol) with false by (symmetry; apply rleb_false; auto). reflexivity.
    - apply rltb_false in A3. replace (rleb (sc_max (scan_nodes v 4)) tol) with true by (symmetry; apply rleb_true; auto). reflexivity. }
  destruct (colinear v (seq 0 4)) eqn:CL; [|reflexivity].
  destruct (existsb _ _) eqn:E3; [reflexivity|].
  replace (rltb (sc_min (scan_nodes v 4)) tol) with true; [reflexivity|].
  symmetry. apply rltb_true. apply rltb_false in A3.
  pose proof (min_le v 4 0 ltac:(lia)) as M0. pose proof (max_ge v 4 0 ltac:(lia)) as X0.
  destruct (Rle_lt_or_eq_dec _ _ A1) as [L|L]; auto. exfalso.
  apply (proj1 (noties_spec v) NT 0 ltac:(lia)). rewrite Rabs_right; pose proof tol_pos; lra.
Qed.
(** The branch that builds sub-elements. *)
Lemma find_quad4_eval phi e sd mxe mxn c m rs rn l : (forall i, i < 4 -> cl (phi (e_pt e i)) = c i) ->
  nocol c = true ->
  find_mode (nds c) (sds c) (rltb 0%R (phi (centroid e) * phi (e_pt e 0))%R) = Ok (m, rs, rn) ->
  through m = true -> subs_of m rs rn = Ok l -> (length l <=? 4) = true ->
  exists r, find_quad4 phi e sd mxe mxn = Ok r /\ cut phi e sd mxe mxn r m rs rn l.
Proof.
  intros C NC F TH S L. set (v := fun i => phi (e_pt e i)).
  assert (M4 : forall k, k mod 4 < 4) by (intros; apply Nat.mod_upper_bound; lia).
  assert (F' : find_mode (node_hit v) (side_hit v) (rltb 0%R (phi (centroid e) * phi (e_pt e 0))%R) = Ok (m, rs, rn)).
  { rewrite <- F. apply find_mode_ext; intros i Hi.
    - rewrite node_hit_cl. unfold nds, v. rewrite C; auto.
    - rewrite side_hit_cl. unfold sds, v. rewrite !C; auto. }
  assert (NC' : nocol (fun i => cl (v i)) = true).
  { rewrite <- NC. unfold nocol. cbn [seq forallb]. unfold v. rewrite !C; auto; lia. }
  assert (X : exists r, find_quad4 phi e sd mxe mxn = Ok r).
  { unfold find_quad4. cbv zeta. fold v. rewrite F'. cbn [bind]. rewrite TH. cbn [assert_]. rewrite S. cbn [bind].
    change (N.to_nat max_elem_divs) with 4. rewrite L. cbn [assert_]. eexists; reflexivity. }
  destruct X as (r & X). exists r. split; auto.
  destruct (cut_inv phi e sd mxe mxn r NC' X) as (m' & rs' & rn' & l' & K).
  assert (E : (m', rs', rn') = (m, rs, rn)).
  { unfold find_quad4 in X. cbv zeta in X. fold v in X. rewrite F' in X. cbn [bind] in X. rewrite TH in X. cbn [assert_] in X.
    rewrite S in X. cbn [bind] in X.  change (N.to_nat max_elem_divs) with 4 in X. rewrite L in X. cbn [assert_] in X.
    injection X as <-. pose proof (c_mode _ _ _ _ _ _ _ _ _ _ K) as K1. pose proof (c_made _ _ _ _ _ _ _ _ _ _ K) as K2.
    pose proof (c_rsubs _ _ _ _ _ _ _ _ _ _ K) as K3. cbn [r_mode r_made r_subs] in K1, K2, K3. subst m'. subst l'.
    pose proof (c_in _ _ _ _ _ _ _ _ _ _ K) as I1. pose proof (c_subs _ _ _ _ _ _ _ _ _ _ K) as I2.
    assert (IN : In (m, rs, rn) occurring).
    { destruct (check_facts (fun i => cl (v i)) (rltb 0 (phi (centroid e) * phi (e_pt e 0))) m rs rn NC') as (I & _); auto.
      rewrite <- F'. symmetry. apply find_mode_ext; intros; [apply node_hit_cl|apply side_hit_cl]. }
    clear - I1 I2 S IN. cases IN; injection S as <-;
      (unfold occurring in I1; cbn [In] in I1;
       repeat (destruct I1 as [I1|I1]; [first [discriminate I1|injection I1 as <- <-; first [reflexivity|discriminate I2]]|]); destruct I1). }
  injection E as -> -> ->. replace l with l'; auto.
  pose proof (c_subs _ _ _ _ _ _ _ _ _ _ K). congruence.
Qed.

(** A QUAD4 without ties always gets a mode. *)
Lemma init_total phi e mxe mxn : e_type e = QUAD4 ->
  (forall i, i < 4 -> Rabs (phi (e_pt e i)) <> tol) -> exists r, init phi e mxe mxn = Ok r.
Proof.
  intros T H. set (v := fun i => phi (e_pt e i)). set (c := fun i => cl (v i)).
  assert (NT : noties c = true) by (apply noties_spec; exact H).
  destruct (init_noties phi e mxe mxn T NT) as (k & E). rewrite E. clear E.
  unfold init_cls. cbv zeta. fold v. change (fun i => cl (phi (e_pt e i))) with c.
  change (existsb (fun i => isP (cl (phi (e_pt e i)))) (seq 0 4)) with (existsb (fun i => isP (c i)) (seq 0 4)).
  destruct (allP c) eqn:P; [eexists; reflexivity|].
  destruct (allN c) eqn:N; [eexists; reflexivity|].
  destruct ((nz c =? 1) && negb (mixed c)) eqn:E1.
  { destruct (existsb _ _); eexists; reflexivity. }
  destruct (colinear v (seq 0 4)) eqn:CL.
  { destruct (existsb _ _); eexists; reflexivity. }
  apply colinear_none in CL. fold c in CL.
  assert (MX : nz c = 1 -> mixed c = true).
  { intros Z. rewrite Z in E1. cbn in E1. destruct (mixed c); auto. }
  unfold find_quad4. cbv zeta. fold v.
  set (mid := rltb 0%R _). clearbody mid.
  rewrite (find_mode_ext (node_hit v) (nds c) (side_hit v) (sds c));
    [|intros; apply node_hit_cl|intros; apply side_hit_cl].
  destruct (total_facts c mid NT CL P N MX) as (m & rs & rn & F & TH).
  destruct (check_facts c mid m rs rn CL F TH) as (IN & _).
  rewrite F. cbn [bind]. rewrite TH. cbn [assert_].
  assert (S : exists l, subs_of m rs rn = Ok l /\ (length l <=? N.to_nat max_elem_divs) = true).
  { clear - IN. cases IN; eexists; split; reflexivity. }
  destruct S as (l & S & L). rewrite S. cbn [bind]. rewrite L. cbn [assert_]. eexists; reflexivity.
Qed.
