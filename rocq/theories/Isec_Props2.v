(** Properties C46, C49 and C91, continued: the node or side touched, the choice between the two ways
    of joining four cuts, the sides on the interface and the ids of the nodes made. *)
From Coq Require Import List Arith NArith ZArith Lia Bool Reals Lra Psatz.
From Verif Require Import Base BaseLemmas RBool Filt_Model Isec_Model Isec_Spec Isec_Proofs Isec_Proofs2 Isec_Proofs3
  Isec_Proofs4 Isec_Proofs5 Isec_Props.
Import ListNotations.
Open Scope nat_scope.

(** ** C46: what is touched *)
Lemma scan_last v l : forall s, sc_n s <= sc_n (fold_left (scan_node v) l s) /\
  (sc_n s < sc_n (fold_left (scan_node v) l s) ->
   let k := sc_last (fold_left (scan_node v) l s) in k < 4 /\ on_ls (v k) = true).
Proof.
  induction l as [|a l IH]; intros s; cbn [fold_left]; [split; [lia|intros X; lia]|].
  destruct (IH (scan_node v s a)) as (A & B). unfold scan_node at 1 in A. cbn [sc_n] in A.
  destruct ((a <? 4) && on_ls (v a)) eqn:E.
  - split; [lia|]. intros _. destruct (Nat.eq_dec (sc_n (scan_node v s a)) (sc_n (fold_left (scan_node v) l (scan_node v s a)))) as [X|X].
    + assert (K : forall l s, sc_n s = sc_n (fold_left (scan_node v) l s) -> sc_last (fold_left (scan_node v) l s) = sc_last s).
      { clear. induction l as [|a l IH]; intros s H; auto. cbn [fold_left] in *.
        assert (Q : forall l s, sc_n s <= sc_n (fold_left (scan_node v) l s)).
        { clear. induction l as [|a l IH]; intros s; cbn [fold_left]; auto. eapply Nat.le_trans; [|apply IH]. unfold scan_node. cbn [sc_n].
          destruct ((a <? 4) && on_ls (v a)); lia. }
        specialize (Q l (scan_node v s a)). unfold scan_node at 1 in Q. cbn [sc_n] in Q. rewrite <- H in Q.
        destruct ((a <? 4) && on_ls (v a)) eqn:E; [lia|]. rewrite IH.
        - unfold scan_node. cbn [sc_last]. rewrite E. auto.
        - rewrite <- H. unfold scan_node. cbn [sc_n]. rewrite E. auto. }
      cbv zeta. rewrite K by auto. unfold scan_node. cbn [sc_last]. rewrite E. apply andb_prop in E. destruct E as (E1 & E2).
      apply Nat.ltb_lt in E1. auto.
    + apply B. pose proof (proj1 (IH (scan_node v s a))). lia.
  - split; [lia|]. intros X. apply B. unfold scan_node at 1. cbn [sc_n]. rewrite E. exact X.
Qed.
(** Mode THROUGH_NODE: the node reported is a corner on the level set, and no other corner is. *)
Theorem C46_touched_node phi e mxe mxn r : init phi e mxe mxn = Ok r -> r_mode r = THROUGH_NODE ->
  r_node r < 4 /\ forall i, i < 4 -> ((Rabs (phi (e_pt e i)) <= tol)%R <-> i = r_node r).
Proof.
  intros H M. pose proof (init_ok_quad _ _ _ _ _ H) as Q. assert (I := init_inv _ _ _ _ _ H). rewrite init_quad in H by auto.
  pose proof (quad_n e Q) as QN. unfold init_ref in H. cbv zeta in H.
  set (v := fun i => phi (e_pt e i)) in *. set (n := n_nodes e) in *. set (s := scan_nodes v n) in *.
  destruct (rltb tol (sc_min s)) eqn:E1; [injection H as <-; discriminate M|].
  destruct (rltb (sc_max s) (- tol)) eqn:E2; [injection H as <-; discriminate M|].
  destruct ((sc_n s =? 1) && negb _) eqn:E3 in H.
  - apply andb_prop in E3. destruct E3 as (E3 & _). apply Nat.eqb_eq in E3.
    assert (R : r_node r = sc_last s).
    { destruct (rleb (sc_min s) tol && rleb (sc_max s) tol); [injection H as <-; auto|].
      destruct (rltb tol (sc_max s)); cbn [assert_] in H; [injection H as <-; auto|discriminate H]. }
    clear H. destruct (scan_last v (seq 0 n) (mkScan (10 ^ 12)%R (- 10 ^ 12)%R 0 0)) as (_ & L). fold (scan_nodes v n) in L. fold s in L.
    cbn [sc_n] in L. destruct (L ltac:(lia)) as (L1 & L2). cbv zeta in *. rewrite R. split; auto.
    unfold s in E3. rewrite scan_n4 in E3 by auto. unfold nz in E3. 
    intros i Hi. split.
    + intros A. assert (A' : onl (cl (v i)) = true) by (rewrite <- on_ls_cl; unfold on_ls; apply rleb_true; exact A). rewrite on_ls_cl in L2.
      destruct (Nat.eq_dec i (sc_last s)) as [|NE]; auto. exfalso.
      assert (G : forall l a b, NoDup l -> In a l -> In b l -> a <> b -> onl (cl (v a)) = true -> onl (cl (v b)) = true -> 2 <= length (filter (fun i => onl (cl (v i))) l)).
      { clear. intros l a b ND A B NE X Y. assert (NoDup [a; b]) by (repeat constructor; cbn; intuition).
        change 2 with (length [a; b]). apply NoDup_incl_length; auto. intros z [<-|[<-|[]]]; apply filter_In; auto. }
      specialize (G (seq 0 4) i (sc_last s) (seq_NoDup _ _)). rewrite E3 in G.
      assert (2 <= 1); [apply G; auto; apply in_seq; lia|lia].
    + intros ->. unfold on_ls in L2. apply rleb_true in L2. exact L2.
  - destruct (colinear v (seq 0 4)) as [i|] eqn:E4.
    + destruct (rltb tol (sc_max s)); [|destruct (rltb (sc_min s) tol)]; injection H as <-; discriminate M.
    + exfalso. apply colinear_none in E4. destruct (cut_inv _ _ _ _ _ _ E4 H) as (m & rs & rn & l & C).
      pose proof (c_in _ _ _ _ _ _ _ _ _ _ C) as IN. rewrite <- (c_mode _ _ _ _ _ _ _ _ _ _ C), M in IN.
      unfold occurring in IN. cbn [In] in IN. repeat (destruct IN as [IN|IN]; [discriminate IN|]). destruct IN.
Qed.
(** Mode COLINEAR_EDGE: both ends of the side reported are on the level set. *)
Theorem C46_touched_side phi e mxe mxn r : init phi e mxe mxn = Ok r -> r_mode r = COLINEAR_EDGE ->
  r_edge r < 4 /\ (Rabs (phi (e_pt e (r_edge r))) <= tol)%R /\ (Rabs (phi (e_pt e ((r_edge r + 1) mod 4))) <= tol)%R.
Proof.
  intros H M. destruct (init_inv _ _ _ _ _ H) as [M' _ _ _ _ _ _ _ _ V|M' _ _ _ _ _ _ _ _ V|_ _ _ _ _ _ _ _ _ _ Q|m rs rn l C _ _]; try congruence; auto.
  exfalso. pose proof (c_in _ _ _ _ _ _ _ _ _ _ C) as IN. rewrite <- (c_mode _ _ _ _ _ _ _ _ _ _ C), M in IN.
  unfold occurring in IN. cbn [In] in IN. repeat (destruct IN as [IN|IN]; [discriminate IN|]). destruct IN.
Qed.

(** ** C46: four cut edges *)
(** The value at the centroid decides which pair of corners is cut off: the pieces on the other side
    of the level set are triangles at single corners, the pieces on the side of the centroid are
    the quadrilaterals that fill the rest. *)
Theorem C46_centroid phi e mxe mxn r : init phi e mxe mxn = Ok r -> r_mode r = TWO_ADJACENT_EDGES ->
  let corners := fun p c q => length (verts r p) = c /\ exists k, k < 4 /\ In (Old k) (verts r p) /\
      (forall k', In (Old k') (verts r p) -> k' = k) /\ q (phi (e_pt e k)) in
  ((0 < phi (centroid e))%R -> (forall p, In p (r_neg r) -> corners p 3 (fun x => (x < 0)%R)) /\
                               (forall p, In p (r_pos r) -> corners p 4 (fun x => (0 < x)%R))) /\
  ((phi (centroid e) < 0)%R -> (forall p, In p (r_pos r) -> corners p 3 (fun x => (0 < x)%R)) /\
                               (forall p, In p (r_neg r) -> corners p 4 (fun x => (x < 0)%R))).
Proof.
  intros H M corners. destruct (init_inv _ _ _ _ _ H) as [M' _ _ _ _ _ _ _ _ V|M' _ _ _ _ _ _ _ _ V|M' _ _ _ _ _ _ _ _ _ Q|m rs rn l C _ _]; try congruence.
  { destruct M'; congruence. }
  destruct C as [CM CI CS CR CD CF CID CSU CL CSI CC (NC & FM)]. cbv zeta in CL. rewrite M in CM. subst m.
  set (v := fun i => phi (e_pt e i)) in *.
  set (c := fun i => cl (phi (e_pt e i))) in *. set (mid := rltb 0 _) in FM.
  assert (SG : forall k, k < 4 -> (v k * v ((k + 1) mod 4) < 0)%R).
  { intros k Hk. cbn [sides_of] in CSI. 
    assert (RS : rs < 4).
    { unfold occurring in CI. cbn [In] in CI. repeat (destruct CI as [CI|CI]; [first [discriminate CI|injection CI as <- <-; lia]|]). destruct CI. }
    assert (EX : exists j, In j [rs; rs + 1; rs + 2; rs + 3] /\ j mod 4 = k).
    { clear - RS Hk. exists (rs + (k + 4 - rs) mod 4).
      do 4 (destruct rs as [|rs]; [do 4 (destruct k as [|k]; [split; [cbn; tauto|reflexivity]|]); lia|]). lia. }
    destruct EX as (j & J & <-). destruct (CSI j J) as (A & _). rewrite mod_succ. exact A. }
  pose proof (SG 0 ltac:(lia)) as S0. pose proof (SG 1 ltac:(lia)) as S1. pose proof (SG 2 ltac:(lia)) as S2. pose proof (SG 3 ltac:(lia)) as S3.
  cbn [Nat.add Nat.modulo Nat.divmod fst snd Nat.sub] in S0, S1, S2, S3.
  assert (RS : rs = (if mid then 0 else 1) /\ rn = 0).
  { unfold find_mode in FM. destruct (n_hits _ _) as [|[|[|[|[|]]]]]; try discriminate FM.
    - exfalso. injection FM as FM. clear - FM. cbn [seq case2] in FM.
      repeat match type of FM with context [if ?b then _ else _] => destruct b end; discriminate FM.
    - exfalso. injection FM as FM. clear - FM. cbn [seq case3] in FM.
      repeat match type of FM with context [if ?b then _ else _] => destruct b end; discriminate FM.
    - injection FM as FM. destruct (_ && _ && _ && _); [|discriminate FM]. injection FM as F1 F2. split; auto. }
  destruct RS as (RS & ->).
  assert (P0 : forall k, k < 4 -> onl (c k) = false -> isP (c k) = rltb 0 (v k)) by (intros; symmetry; apply pos_cl; auto).
  assert (NO : forall k, (v k * v ((k + 1) mod 4) < 0)%R -> True) by auto. clear NO.
  assert (RC : onl (c (ref_corner_of TWO_ADJACENT_EDGES rs 0)) = false).
  { destruct (check_facts c mid TWO_ADJACENT_EDGES rs 0 NC FM eq_refl) as (_ & _ & RC & _). exact RC. }
  cbn [ref_corner_of] in CL, RC. assert (RS4 : rs mod 4 = rs) by (rewrite RS; destruct mid; reflexivity). rewrite RS4 in CL, RC.
  assert (PR : isP (cl (phi (e_pt e rs))) = rltb 0 (v rs)) by (apply P0; auto; rewrite RS; destruct mid; lia).
  rewrite PR in CL. cbn [split_of fst snd] in CL. destruct CL as (CP & CN).
  cbn [subs_of] in CS. injection CS as <-.
  assert (TR3 : forall p, In p (map Some [0; 1]) -> length (verts r p) = 3 /\ exists k, k < 4 /\ In (Old k) (verts r p) /\
      (forall k', In (Old k') (verts r p) -> k' = k) /\ (k = (rs + 1) mod 4 \/ k = (rs + 3) mod 4)).
  { intros p [<-|[<-|[]]]; unfold verts; rewrite CR; cbn [nth_error s_vert]; split; auto; unfold o.
    - exists ((rs + 1) mod 4). split; [apply Nat.mod_upper_bound; lia|]. split; [right; left; auto|]. split; auto.
      intros k' K. cbn [In] in K. intuition congruence.
    - exists ((rs + 3) mod 4). split; [apply Nat.mod_upper_bound; lia|]. split; [right; right; left; auto|]. split; auto.
      intros k' K. cbn [In] in K. intuition congruence. }
  assert (TR4 : forall p, In p (map Some [2; 3]) -> length (verts r p) = 4 /\ exists k, k < 4 /\ In (Old k) (verts r p) /\
      (forall k', In (Old k') (verts r p) -> k' = k) /\ (k = rs mod 4 \/ k = (rs + 2) mod 4)).
  { intros p [<-|[<-|[]]]; unfold verts; rewrite CR; cbn [nth_error s_vert]; split; auto; unfold o.
    - exists (rs mod 4). split; [apply Nat.mod_upper_bound; lia|]. split; [left; auto|]. split; auto.
      intros k' K. cbn [In] in K. intuition congruence.
    - exists ((rs + 2) mod 4). split; [apply Nat.mod_upper_bound; lia|]. split; [right; right; left; auto|]. split; auto.
      intros k' K. cbn [In] in K. intuition congruence. }
  assert (W3 : forall q : R -> Prop, q (v ((rs + 1) mod 4)) -> q (v ((rs + 3) mod 4)) -> forall p, In p (map Some [0; 1]) -> corners p 3 q).
  { intros q A B p Hp. destruct (TR3 p Hp) as (T1 & k & T2 & T3 & T4 & T5). split; auto. exists k. repeat split; auto. destruct T5 as [->| ->]; auto. }
  assert (W4 : forall q : R -> Prop, q (v (rs mod 4)) -> q (v ((rs + 2) mod 4)) -> forall p, In p (map Some [2; 3]) -> corners p 4 q).
  { intros q A B p Hp. destruct (TR4 p Hp) as (T1 & k & T2 & T3 & T4 & T5). split; auto. exists k. repeat split; auto. destruct T5 as [->| ->]; auto. }
  change (v 0) with (phi (e_pt e 0)) in *.
  destruct mid eqn:MID; unfold mid in MID; [apply rltb_true in MID|apply rltb_false in MID]; subst rs;
    cbn [Nat.add Nat.modulo Nat.divmod fst snd Nat.sub] in W3, W4.
  - split; intros Z.
    + assert (V0 : (0 < v 0%nat)%R) by (unfold v; nra). replace (rltb 0%R (v 0%nat)) with true in CP, CN by (symmetry; apply rltb_true; auto).
      rewrite CP, CN. split; [apply W3|apply W4]; cbn beta; unfold v in *; nra.
    + assert (V0 : (v 0%nat < 0)%R) by (unfold v; nra). replace (rltb 0%R (v 0%nat)) with false in CP, CN by (symmetry; apply rltb_false; unfold v in *; lra).
      rewrite CP, CN. split; [apply W3|apply W4]; cbn beta; unfold v in *; nra.
  - split; intros Z.
    + assert (V1 : (0 < v 1%nat)%R) by (unfold v in *; nra). replace (rltb 0%R (v 1%nat)) with true in CP, CN by (symmetry; apply rltb_true; auto).
      rewrite CP, CN. split; [apply W3|apply W4]; cbn beta; unfold v in *; nra.
    + assert (V1 : (v 1%nat < 0)%R) by (unfold v in *; nra). replace (rltb 0%R (v 1%nat)) with false in CP, CN by (symmetry; apply rltb_false; unfold v in *; lra).
      rewrite CP, CN. split; [apply W3|apply W4]; cbn beta; unfold v in *; nra.
Qed.

Example C46_centroid_example : exists r, init (xyz (fun x y => (4 * (1 - 2 * x) * (1 - 2 * y) + 2)%R)) sq 10 10 = Ok r /\
  r_mode r = TWO_ADJACENT_EDGES /\ (0 < xyz (fun x y => (4 * (1 - 2 * x) * (1 - 2 * y) + 2)%R) (centroid sq))%R.
Proof.
  set (f := fun x y : R => (4 * (1 - 2 * x) * (1 - 2 * y) + 2)%R). pose proof tol_lt1 as T1.
  assert (K0 : cl (f 0 0)%R = Ps) by (unfold f; apply cl_Ps; lra).
  assert (K1 : cl (f 1 0)%R = Ng) by (unfold f; apply cl_Ng; lra).
  assert (K2 : cl (f 1 1)%R = Ps) by (unfold f; apply cl_Ps; lra).
  assert (K3 : cl (f 0 1)%R = Ng) by (unfold f; apply cl_Ng; lra).
  assert (CE : xyz f (centroid sq) = 2%R) by (unfold xyz, centroid, f; cbn; lra).
  assert (M : rltb 0%R (xyz f (centroid sq) * xyz f (e_pt sq 0))%R = true).
  { apply rltb_true. rewrite CE. cbn. unfold f. lra. }
  destruct (sq_cut' f _ _ _ _ K0 K1 K2 K3 10 10 TWO_ADJACENT_EDGES 0 0
     [mkSub [Made 0; o 1; Made 1] 2; mkSub [Made 3; Made 2; o 3] 0; mkSub [o 0; Made 0; Made 2; Made 3] 2; mkSub [Made 0; Made 1; o 2; Made 2] 0]) as (r & R1 & R2);
    try reflexivity; [rewrite M; reflexivity|].
  exists r. split; [exact R1|]. split; [apply (c_mode _ _ _ _ _ _ _ _ _ _ R2)|]. rewrite CE. lra.
Qed.
Example C46_touched_example : exists r, init (xyz (fun x y => (x + y)%R)) sq 10 10 = Ok r /\ r_mode r = THROUGH_NODE.
Proof.
  set (f := fun x y : R => (x + y)%R). pose proof tol_lt1 as T1.
  assert (K0 : cl (f 0 0)%R = Zr) by (unfold f; replace (0 + 0)%R with 0%R by ring; apply cl_0).
  assert (K1 : cl (f 1 0)%R = Ps) by (unfold f; apply cl_Ps; lra).
  assert (K2 : cl (f 1 1)%R = Ps) by (unfold f; apply cl_Ps; lra).
  assert (K3 : cl (f 0 1)%R = Ps) by (unfold f; apply cl_Ps; lra).
  assert (CE : forall i, i < 4 -> cl (xyz f (e_pt sq i)) = mk4 Zr Ps Ps Ps i) by (apply sq_cl; auto).
  assert (NT : noties (fun i => cl (xyz f (e_pt sq i))) = true) by (unfold noties; cbn [seq forallb]; rewrite !CE by lia; reflexivity).
  destruct (init_noties (xyz f) sq 10 10 eq_refl NT) as (k & E).
  unfold init_cls in E. cbv zeta in E.
  replace (allP _) with false in E by (unfold allP; cbn [seq forallb]; rewrite !CE by lia; reflexivity).
  replace (allN _) with false in E by (unfold allN; cbn [seq forallb]; rewrite !CE by lia; reflexivity).
  replace (nz _) with 1 in E by (unfold nz; cbn [seq filter]; rewrite !CE by lia; reflexivity).
  replace (mixed _) with false in E by (unfold mixed; cbn [seq existsb]; rewrite !CE by lia; reflexivity).
  replace (existsb _ _) with true in E by (cbn [seq existsb]; rewrite !CE by lia; reflexivity).
  eexists. split; [exact E|reflexivity].
Qed.

(** ** C91: the sides reported to be on the interface *)
Definition onb (c : nat -> cls) (m : mode) (x : vertex) : bool :=
  match x with
  | Old k => (k <? 4) && onl (c k)
  | Made j => match m with
              | ADJACENT_EDGES => j <? 2 | OPPOSITE_EDGES => j <? 2 | NODE_AND_EDGE => j <? 1
              | NODE_AND_TWO_EDGES => j <? 2 | TWO_ADJACENT_EDGES => j <? 4 | _ => false
              end
  end.
Definition vert_eqb (x y : vertex) : bool :=
  match x, y with Old a, Old b => a =? b | Made a, Made b => a =? b | _, _ => false end.
Lemma vert_eqb_eq x y : vert_eqb x y = true -> x = y.
Proof. destruct x, y; cbn; intros H; try discriminate; apply Nat.eqb_eq in H; subst; auto. Qed.
Definition ends (s : sub) : option (vertex * vertex) :=
  if (s_side s <? 0)%Z then None else
  match nth_error (s_vert s) (Z.to_nat (s_side s)), nth_error (s_vert s) (S (Z.to_nat (s_side s)) mod length (s_vert s)) with
  | Some x, Some y => Some (x, y) | _, _ => None
  end.
Definition meets (l : list sub) (x y : vertex) (k : nat) : bool :=
  match nth_error l k with
  | Some s => match ends s with Some (x', y') => vert_eqb x y' && vert_eqb y x' | None => false end
  | None => false
  end.
Definition side_chk (c : nat -> cls) (m : mode) (l : list sub) (other : list nat) (k : nat) : bool :=
  match nth_error l k with
  | None => false
  | Some s =>
      if (s_side s <? 0)%Z then (s_side s =? -1)%Z && forallb (fun i => match nth_error (s_vert s) i, nth_error (s_vert s) (S i mod length (s_vert s)) with
                                             | Some x, Some y => negb (onb c m x && onb c m y) | _, _ => true end) (seq 0 (length (s_vert s)))
      else match ends s with
           | Some (x, y) => onb c m x && onb c m y && existsb (meets l x y) other
           | None => false
           end
  end.
Definition side_check (c : nat -> cls) (mid : bool) : bool :=
  match find_mode (nds c) (sds c) mid with
  | Ok (m, r, n) =>
      negb (nocol c) || negb (through m) ||
      match subs_of m r n with
      | Ok l => let sp := split_of m r n in
          forallb (side_chk c m l (snd sp)) (fst sp) && forallb (side_chk c m l (fst sp)) (snd sp)
      | Fault _ => false
      end
  | Fault _ => true
  end.
Lemma side_check_all a b c d mid : side_check (mk4 a b c d) mid = true.
Proof. destruct a, b, c, d, mid; vm_compute; reflexivity. Qed.
Lemma side_facts (c : nat -> cls) mid m r n l : nocol c = true ->
  find_mode (nds c) (sds c) mid = Ok (m, r, n) -> through m = true -> subs_of m r n = Ok l ->
  forall k, (In k (fst (split_of m r n)) -> side_chk c m l (snd (split_of m r n)) k = true) /\
            (In k (snd (split_of m r n)) -> side_chk c m l (fst (split_of m r n)) k = true).
Proof.
  intros NC F T SU k. set (c' := mk4 (c 0) (c 1) (c 2) (c 3)).
  assert (C : forall i, i < 4 -> c i = c' i).
  { intros i Hi. do 4 (destruct i as [|i]; [reflexivity|]). lia. }
  assert (M4 : forall k, k mod 4 < 4) by (intros; apply Nat.mod_upper_bound; lia).
  pose proof (side_check_all (c 0) (c 1) (c 2) (c 3) mid) as H. fold c' in H. unfold side_check in H.
  rewrite (find_mode_ext (nds c') (nds c) (sds c') (sds c)) in H.
  2: { intros i Hi. unfold nds. rewrite C; auto. }
  2: { intros i Hi. unfold sds. rewrite !C; auto. }
  rewrite F, T, SU in H.
  assert (NC' : nocol c' = true).
  { rewrite <- NC. unfold nocol. cbn [seq forallb]. rewrite !C; auto; lia. }
  rewrite NC' in H. cbn [negb orb] in H. cbv zeta in H. apply andb_prop in H. destruct H as (H1 & H2).
  assert (OB : forall x, onb c m x = onb c' m x).
  { intros [i|i]; auto. unfold onb. destruct (i <? 4) eqn:I; auto. apply Nat.ltb_lt in I. rewrite (C i I). auto. }
  assert (SC : forall other k, side_chk c m l other k = side_chk c' m l other k).
  { intros other j. unfold side_chk. destruct (nth_error l j) as [s|]; auto.
    assert (FE : forall ks, forallb (fun i => match nth_error (s_vert s) i, nth_error (s_vert s) (S i mod length (s_vert s)) with
                                             | Some x, Some y => negb (onb c m x && onb c m y) | _, _ => true end) ks =
      forallb (fun i => match nth_error (s_vert s) i, nth_error (s_vert s) (S i mod length (s_vert s)) with
                                             | Some x, Some y => negb (onb c' m x && onb c' m y) | _, _ => true end) ks).
    { induction ks as [|i ks IH]; auto. cbn [forallb]. rewrite IH. destruct (nth_error (s_vert s) i); auto.
      destruct (nth_error (s_vert s) (S i mod _)); auto. rewrite !OB. auto. }
    rewrite FE. destruct (ends s) as [[x y]|]; auto. rewrite !OB. auto. }
  rewrite forallb_forall in H1, H2. rewrite !SC. split; auto.
Qed.
Lemma onb_ok phi e sd mxe mxn r m rs rn l x : cut phi e sd mxe mxn r m rs rn l ->
  onb (fun i => cl (phi (e_pt e i))) m x = true <-> on_interface phi e r x.
Proof.
  intros C. destruct x as [k|j]; cbn [onb on_interface].
  - rewrite andb_true_iff, Nat.ltb_lt, <- on_ls_cl. unfold on_ls. rewrite rleb_true. tauto.
  - rewrite (c_made _ _ _ _ _ _ _ _ _ _ C).
    destruct m; cbn [made_of]; destruct j as [|[|[|[|[|j]]]]]; cbn [nth_error Nat.ltb Nat.leb];
      try (split; [intros _; eexists; split; reflexivity|reflexivity]);
      split; try discriminate; intros (nd & A & B); try discriminate A; injection A as <-; discriminate B.
Qed.
(** Every piece with a reported side has both ends of it on the interface, and the piece across that
    side lies on the other side of the level set and reports the same side.  A piece without one has no
    side on the interface. *)
Theorem C91_interface_sides phi e mxe mxn r k s : init phi e mxe mxn = Ok r -> nth_error (r_subs r) k = Some s ->
  (exists i x y, s_side s = Z.of_nat i /\ side_of s i x y /\ on_interface phi e r x /\ on_interface phi e r y /\
     exists k' s', nth_error (r_subs r) k' = Some s' /\
       ((In (Some k) (r_pos r) /\ In (Some k') (r_neg r)) \/ (In (Some k) (r_neg r) /\ In (Some k') (r_pos r))) /\
       exists i', s_side s' = Z.of_nat i' /\ side_of s' i' y x) \/
  (s_side s = (-1)%Z /\ forall i x y, side_of s i x y -> ~ (on_interface phi e r x /\ on_interface phi e r y)).
Proof.
  intros H K. destruct (init_inv _ _ _ _ _ H) as [_ _ _ _ _ E _ _ _ V|_ _ _ _ _ E _ _ _ V|_ _ _ E _ _ _ _ _ _ _|m rs rn l C _ _];
    try (rewrite E in K; destruct k; discriminate K).
  assert (OB := fun x => onb_ok _ _ _ _ _ _ _ _ _ _ x C).
  destruct C as [CM CI CS CR CD CF CID CSU CL CSI CC (NC & FM)]. cbv zeta in CL. rewrite CR in *.
  assert (TH : through m = true).
  { clear - CI. unfold occurring in CI. cbn [In] in CI. repeat (destruct CI as [CI|CI]; [injection CI as <- <- <-; reflexivity|]). destruct CI. }
  pose proof (side_facts _ _ _ _ _ _ NC FM TH CS) as SF.
  set (c := fun i => cl (phi (e_pt e i))) in *. set (p := isP (cl (phi (e_pt e (ref_corner_of m rs rn))))) in *.
  assert (COV : In k (fst (split_of m rs rn)) \/ In k (snd (split_of m rs rn))).
  { clear - CS CI K. unfold occurring in CI. cbn [In] in CI.
    repeat (destruct CI as [CI|CI]; [injection CI as <- <- <-; cbn [subs_of Nat.eqb Nat.add] in CS; injection CS as <-;
      do 5 (destruct k as [|k]; [cbn; try tauto; try discriminate K|]); destruct k; discriminate K|]). destruct CI. }
  assert (W : forall A B, ((A = fst (split_of m rs rn) /\ B = snd (split_of m rs rn)) \/ (A = snd (split_of m rs rn) /\ B = fst (split_of m rs rn))) ->
    In k A -> side_chk c m l B k = true -> forall k', In k' B ->
    (In (Some k) (r_pos r) /\ In (Some k') (r_neg r)) \/ (In (Some k) (r_neg r) /\ In (Some k') (r_pos r))).
  { intros A B AB KA _ k' KB. destruct CL as (-> & ->). assert (MS : forall (x : nat) (y : list nat), In x y -> In (Some x) (map Some y)) by (intros; apply in_map; auto).
    destruct AB as [(-> & ->)|(-> & ->)]; destruct p; auto. }
  assert (G : exists A B, ((A = fst (split_of m rs rn) /\ B = snd (split_of m rs rn)) \/ (A = snd (split_of m rs rn) /\ B = fst (split_of m rs rn))) /\
     In k A /\ side_chk c m l B k = true).
  { destruct COV as [X|X].
    - exists (fst (split_of m rs rn)), (snd (split_of m rs rn)). split; auto. split; auto. apply SF; auto.
    - exists (snd (split_of m rs rn)), (fst (split_of m rs rn)). split; auto. split; auto. apply SF; auto. }
  destruct G as (A & B & AB & KA & SC). specialize (W A B AB KA SC). unfold side_chk in SC. rewrite K in SC.
  destruct (s_side s <? 0)%Z eqn:NEG.
  - right. apply andb_prop in SC. destruct SC as (S1 & S2). apply Z.eqb_eq in S1. split; auto.
    intros i x y (X & Y) (IX & IY). apply OB in IX, IY. rewrite forallb_forall in S2. specialize (S2 i).
    rewrite X, Y, IX, IY in S2. cbn in S2. assert (false = true) by (apply S2; apply in_seq; split; [lia|]; apply nth_error_Some; congruence). discriminate.
  - left. apply Z.ltb_ge in NEG. destruct (ends s) as [[x y]|] eqn:EN; [|discriminate SC].
    apply andb_prop in SC. destruct SC as (SC & S3). apply andb_prop in SC. destruct SC as (S1 & S2).
    assert (EW : forall s x y, ends s = Some (x, y) -> exists i, s_side s = Z.of_nat i /\ side_of s i x y).
    { clear. intros s x y E. unfold ends in E. destruct (s_side s <? 0)%Z eqn:N; [discriminate E|]. apply Z.ltb_ge in N.
      exists (Z.to_nat (s_side s)). split; [rewrite Z2Nat.id; auto|]. unfold side_of.
      destruct (nth_error (s_vert s) _) as [a|]; [|discriminate E]. destruct (nth_error (s_vert s) (S _ mod _)) as [b|]; [|discriminate E].
      injection E as -> ->. auto. }
    destruct (EW _ _ _ EN) as (i & I1 & I2). exists i, x, y. split; auto. split; auto.
    split; [apply OB; exact S1|]. split; [apply OB; exact S2|].
    apply existsb_exists in S3. destruct S3 as (k' & K1 & K2). unfold meets in K2. destruct (nth_error l k') as [s'|] eqn:N'; [|discriminate K2].
    destruct (ends s') as [[x' y']|] eqn:EN'; [|discriminate K2]. apply andb_prop in K2. destruct K2 as (Q1 & Q2).
    apply vert_eqb_eq in Q1, Q2. subst x' y'. exists k', s'. split; auto.
Qed.

(** ** C49: ids of the nodes made *)
(** The nodes made for one element have different ids, all above the largest id of the mesh. *)
Theorem C49_node_ids phi e mxe mxn r : init phi e mxe mxn = Ok r ->
  NoDup (map m_id (r_made r)) /\ forall nd, In nd (r_made r) -> (mxn < m_id nd <= mxn + 4)%N.
Proof.
  intros H. destruct (init_inv _ _ _ _ _ H) as [_ _ _ _ _ _ E _ _ V|_ _ _ _ _ _ E _ _ V|_ _ _ _ E _ _ _ _ _ _|m rs rn l C _ _];
    try (rewrite E; split; [constructor|intros nd []]).
  rewrite (c_made _ _ _ _ _ _ _ _ _ _ C).
  destruct m; cbn [made_of map make_on make_back m_id In]; (split; [repeat constructor; cbn [In]; lia|]);
    intros nd Hnd; repeat (destruct Hnd as [<-|Hnd]; [cbn [make_on make_back m_id]; lia|]); destruct Hnd.
Qed.
(** The ids of the nodes made for two elements of one mesh are not different. *)
Theorem C49_node_ids_refuted phi e e' mxe mxn r r' nd nd' : init phi e mxe mxn = Ok r -> init phi e' mxe mxn = Ok r' ->
  In nd (r_made r) -> In nd' (r_made r') -> exists n n', In n (r_made r) /\ In n' (r_made r') /\ m_id n = m_id n'.
Proof.
  intros H H' I I'.
  assert (W : forall e r nd, init phi e mxe mxn = Ok r -> In nd (r_made r) -> exists n, In n (r_made r) /\ m_id n = (mxn + 1)%N).
  { clear. intros e r nd H I. destruct (init_inv _ _ _ _ _ H) as [_ _ _ _ _ _ E _ _ V|_ _ _ _ _ _ E _ _ V|_ _ _ _ E _ _ _ _ _ _|m rs rn l C _ _];
      try (rewrite E in I; destruct I).
    rewrite (c_made _ _ _ _ _ _ _ _ _ _ C) in *. destruct m; cbn [made_of] in *; try destruct I; eexists; (split; [left; reflexivity|reflexivity]). }
  destruct (W _ _ _ H I) as (n & A & B). destruct (W _ _ _ H' I') as (n' & A' & B'). exists n, n'. repeat split; auto. congruence.
Qed.
(** A level set crossing two opposite sides: two pieces, each with its reported side, two nodes made. *)
Example C91_example : exists r, init (xyz (fun x y => (1 - 2 * x)%R)) sq 10 10 = Ok r /\ length (r_subs r) = 2 /\ length (r_made r) = 2.
Proof.
  set (f := fun x y : R => (1 - 2 * x)%R).
  assert (K0 : cl (f 0 0)%R = Ps) by (unfold f; replace (1 - 2 * 0)%R with 1%R by ring; apply cl_1).
  assert (K1 : cl (f 1 0)%R = Ng) by (unfold f; replace (1 - 2 * 1)%R with (-1)%R by ring; apply cl_m1).
  assert (K2 : cl (f 1 1)%R = Ng) by (unfold f; replace (1 - 2 * 1)%R with (-1)%R by ring; apply cl_m1).
  assert (K3 : cl (f 0 1)%R = Ps) by (unfold f; replace (1 - 2 * 0)%R with 1%R by ring; apply cl_1).
  destruct (sq_cut f _ _ _ _ K0 K1 K2 K3 10 10 OPPOSITE_EDGES 0 0 _ eq_refl eq_refl eq_refl eq_refl eq_refl
     (fun _ => eq_refl) eq_refl eq_refl eq_refl) as (r & R1 & R2).
  exists r. split; [exact R1|]. rewrite (c_rsubs _ _ _ _ _ _ _ _ _ _ R2), (c_made _ _ _ _ _ _ _ _ _ _ R2). split; reflexivity.
Qed.

Print Assumptions C46_touched_node.
Print Assumptions C46_touched_side.
Print Assumptions C46_centroid.
Print Assumptions C49_node_ids.
Print Assumptions C49_node_ids_refuted.
Print Assumptions C91_interface_sides.
