(** Corners, areas and ids of the sub-elements of a result. *)
From Coq Require Import List Arith NArith ZArith Lia Bool Reals Lra Psatz.
From Verif Require Import Base BaseLemmas RBool Filt_Model Isec_Model Isec_Spec Isec_Proofs Isec_Proofs2 Isec_Proofs3 Isec_Proofs4.
Import ListNotations.
Open Scope nat_scope.

Lemma ok_not_neg x : negb (isN (cl x)) = true -> (- tol <= x)%R.
Proof. intros H. destruct (Rle_lt_dec (- tol) x); auto. apply cl_Ng in r. rewrite r in H. discriminate. Qed.
Lemma ok_not_pos x : negb (isP (cl x)) = true -> (x <= tol)%R.
Proof. intros H. destruct (Rle_lt_dec x tol); auto. apply cl_Ps in r. rewrite r in H. discriminate. Qed.

Lemma corners_old phi e sd mxe mxn r m rs rn l : cut phi e sd mxe mxn r m rs rn l ->
  corners_ok (fun i => cl (phi (e_pt e i))) m rs rn = true ->
  (forall p k, In p (r_pos r) -> In (Old k) (verts r p) -> k < 4 /\ (- tol <= phi (e_pt e k))%R) /\
  (forall p k, In p (r_neg r) -> In (Old k) (verts r p) -> k < 4 /\ (phi (e_pt e k) <= tol)%R).
Proof.
  intros C CO. unfold corners_ok in CO. rewrite (c_subs _ _ _ _ _ _ _ _ _ _ C) in CO. cbv zeta in CO.
  apply andb_prop in CO. destruct CO as [CP CN].
  destruct (c_lists _ _ _ _ _ _ _ _ _ _ C) as (LP & LN). cbv zeta in LP, LN.
  rewrite forallb_forall in CP, CN.
  split; intros p k Hp Hk.
  - rewrite LP in Hp. apply in_map_iff in Hp. destruct Hp as (j & <- & Hj). specialize (CP j Hj).
    cbn [verts] in Hk. rewrite (c_rsubs _ _ _ _ _ _ _ _ _ _ C) in Hk.
    destruct (nth_error l j) as [s|]; [|destruct Hk]. rewrite forallb_forall in CP. specialize (CP _ Hk).
    unfold corner_ok in CP. apply andb_prop in CP. destruct CP as [A B]. apply Nat.ltb_lt in A.
    split; auto. apply ok_not_neg; auto.
  - rewrite LN in Hp. apply in_map_iff in Hp. destruct Hp as (j & <- & Hj). specialize (CN j Hj).
    cbn [verts] in Hk. rewrite (c_rsubs _ _ _ _ _ _ _ _ _ _ C) in Hk.
    destruct (nth_error l j) as [s|]; [|destruct Hk]. rewrite forallb_forall in CN. specialize (CN _ Hk).
    unfold corner_ok in CN. apply andb_prop in CN. destruct CN as [A B]. apply Nat.ltb_lt in A.
    split; auto. apply ok_not_pos; auto.
Qed.

(** New vertices refer to nodes that were made; the hanging node only belongs to the last two
    sub-elements of the mode with two adjacent edges. *)
Lemma made_range e xi mxn m rs rn l j s : In (m, rs, rn) occurring -> subs_of m rs rn = Ok l ->
  In s l -> In (Made j) (s_vert s) -> exists nd, nth_error (made_of e xi mxn m rs) j = Some nd.
Proof.
  intros IN S HS HJ.
  assert (j < length (made_of e xi mxn m rs)).
  { cases IN; cbv [subs_of Nat.eqb Nat.add] in S; injection S as <-; cbn [In] in HS;
    repeat (destruct HS as [HS|HS]; [subst s|]); try destruct HS; cbn [s_vert In o] in HJ;
    repeat (destruct HJ as [HJ|HJ]; [first [discriminate HJ|injection HJ as <-; cbn; lia]|]); destruct HJ. }
  destruct (nth_error (made_of e xi mxn m rs) j) eqn:E; eauto.
  apply nth_error_None in E. lia.
Qed.

Lemma nth_error_hang e xi mxn m rs rn l j s nd : In (m, rs, rn) occurring -> subs_of m rs rn = Ok l ->
  In s l -> In (Made j) (s_vert s) -> nth_error (made_of e xi mxn m rs) j = Some nd ->
  (exists k, In k (sides_of m rs) /\ exists id, nd = make_on e id k (xi (k mod 4))) \/
  (m = ADJACENT_EDGES /\ j = 2 /\ exists id, nd = make_back e id (rs + 2) (xi (rs mod 4))).
Proof.
  intros IN S HS HJ E.
  assert (T : through m = true) by (clear - IN; cases IN; reflexivity).
  pose proof (nth_error_In _ _ E) as I.
  destruct (made_cases _ _ _ _ _ _ I (made_mode _ _ _ _ _ _ I T)) as [K|(K & id & D)]; [left; auto|].
  destruct m; try discriminate. cbn [made_of] in E.
  destruct j as [|[|[|j]]]; cbn [nth_error] in E; [injection E as <-|injection E as <-|injection E as <-|].
  - left. exists rs. cbn. split; auto. eexists; reflexivity.
  - left. exists (rs + 1). cbn [sides_of In]. split; auto. eexists; reflexivity.
  - right. repeat split; auto. eexists; reflexivity.
  - destruct j; discriminate.
Qed.

Definition edges_affine (phi : pt -> R) (e : elem) : Prop :=
  forall i, i < 4 -> affine_on phi (e_pt e i) (e_pt e ((i + 1) mod 4)).

Lemma lst_in {A} (b : bool) (x y : A) P : P x -> P y -> P (if b then x else y).
Proof. destruct b; auto. Qed.

Lemma split_mem m rs rn l k (b : bool) : In (m, rs, rn) occurring -> subs_of m rs rn = Ok l ->
  In k ((if b then fst else snd) (split_of m rs rn)) -> exists s, nth_error l k = Some s.
Proof.
  intros IN S H. assert (k < length l).
  { cases IN; cbv [subs_of Nat.eqb Nat.add] in S; injection S as <-; destruct b; cbn in H |- *; intuition lia. }
  destruct (nth_error l k) eqn:E; eauto. apply nth_error_None in E. lia.
Qed.

Section Corner.
Variables (phi : pt -> R) (e : elem) (sd mxe mxn : N) (r : result) (m : mode) (rs rn : nat) (l : list sub).
Hypothesis C : cut phi e sd mxe mxn r m rs rn l.
Hypothesis AF : edges_affine phi e.

Lemma vpos_cut x : vpos e r x = pos_of e (made_of e (xi_of phi e) mxn m rs) x.
Proof. unfold vpos, pos_of. rewrite (c_made _ _ _ _ _ _ _ _ _ _ C). reflexivity. Qed.

Lemma on_side_zero id k : In k (sides_of m rs) ->
  phi (m_pt (make_on e id k (xi_of phi e (k mod 4)))) = 0%R.
Proof.
  intros Hk. rewrite made_on_pt. destruct (cut_xi _ _ _ _ _ _ _ _ _ _ C k Hk) as (E & _). rewrite E.
  apply edge_xi_affine.
  - apply (c_sides _ _ _ _ _ _ _ _ _ _ C k Hk).
  - rewrite <- mod_succ. apply AF. apply Nat.mod_upper_bound. lia.
Qed.
Lemma hang_between id : m = ADJACENT_EDGES ->
  exists w, (0 <= w <= 1)%R /\ phi (m_pt (make_back e id (rs + 2) (xi_of phi e (rs mod 4)))) =
   ((1 - w) * phi (e_pt e ((rs + 2) mod 4)) + w * phi (e_pt e ((rs + 3) mod 4)))%R.
Proof.
  intros M. exists (1 - xi_of phi e (rs mod 4))%R. pose proof (xi_01 phi e (rs mod 4)).
  split; [lra|]. rewrite made_back_pt. replace (rs + 2 + 1) with (rs + 3) by lia.
  pose proof (AF ((rs + 2) mod 4) (Nat.mod_upper_bound _ 4 ltac:(lia))) as A.
  rewrite mod_succ in A. replace (rs + 2 + 1) with (rs + 3) in A by lia. apply A. lra.
Qed.
Lemma adj_split k (b : bool) : m = ADJACENT_EDGES -> In k (if b then [1; 2] else [0]) -> forall s,
  nth_error l k = Some s -> In (Made 2) (s_vert s) ->
  b = true.
Proof.
  intros M Hk s E HS. subst m. pose proof (c_subs _ _ _ _ _ _ _ _ _ _ C) as S. cbn [subs_of] in S.
  injection S as <-. destruct b; auto. destruct Hk as [<-|[]]. cbn [nth_error] in E. injection E as <-.
  cbn in HS. intuition discriminate.
Qed.
Lemma corners_new : corners_ok (fun i => cl (phi (e_pt e i))) m rs rn = true ->
  (forall p x, In p (r_pos r) -> In x (verts r p) -> (- tol <= phi (vpos e r x))%R) /\
  (forall p x, In p (r_neg r) -> In x (verts r p) -> (phi (vpos e r x) <= tol)%R).
Proof.
  intros CO. destruct (corners_old _ _ _ _ _ _ _ _ _ _ C CO) as (OP & ON).
  pose proof tol_pos as TP. pose proof (c_in _ _ _ _ _ _ _ _ _ _ C) as IN. pose proof (c_subs _ _ _ _ _ _ _ _ _ _ C) as S.
  destruct (c_lists _ _ _ _ _ _ _ _ _ _ C) as (LP & LN). cbv zeta in LP, LN.
  set (b := isP _) in LP, LN. clearbody b.
  pose proof (c_rsubs _ _ _ _ _ _ _ _ _ _ C) as RS.
  assert (HG : forall j p, In p (r_pos r ++ r_neg r) -> In (Made j) (verts r p) ->
     phi (vpos e r (Made j)) = 0%R \/
     (m = ADJACENT_EDGES /\ j = 2 /\ exists w, (0 <= w <= 1)%R /\ phi (vpos e r (Made j)) =
       ((1 - w) * phi (e_pt e ((rs + 2) mod 4)) + w * phi (e_pt e ((rs + 3) mod 4)))%R)).
  { intros j p Hp HJ. rewrite LP, LN, <- map_app in Hp. apply in_map_iff in Hp. destruct Hp as (k & <- & Hk).
    cbn [verts] in HJ. rewrite RS in HJ. destruct (nth_error l k) as [s|] eqn:E; [|destruct HJ].
    pose proof (nth_error_In _ _ E) as IS.
    destruct (made_range e (xi_of phi e) mxn _ _ _ _ _ _ IN S IS HJ) as (nd & ND).
    rewrite vpos_cut. unfold pos_of. rewrite ND.
    destruct (nth_error_hang _ _ _ _ _ _ _ _ _ _ IN S IS HJ ND) as [(q & Q & id & D)|(M & J & id & D)].
    - left. subst nd. apply on_side_zero. auto.
    - right. repeat split; auto. subst nd. apply hang_between. auto. }
  assert (HV : forall w x y t, (0 <= w <= 1)%R -> (t <= x)%R -> (t <= y)%R -> (t <= (1 - w) * x + w * y)%R) by (intros; nra).
  assert (HV' : forall w x y t, (0 <= w <= 1)%R -> (x <= t)%R -> (y <= t)%R -> ((1 - w) * x + w * y <= t)%R) by (intros; nra).
  split; intros p [k|j] Hp Hx.
  - cbn [vpos]. apply (OP p k Hp Hx).
  - destruct (HG j p) as [Z|(M & J & w & W & Z)]; auto; [apply in_or_app; auto|rewrite Z; lra|].
    subst j. rewrite Z. rewrite M in LP, S. cbn [split_of fst snd] in LP. rewrite LP in Hp.
    apply in_map_iff in Hp. destruct Hp as (k & <- & Hk). cbn [verts] in Hx. rewrite RS in Hx.
    destruct (nth_error l k) as [s|] eqn:E; [|destruct Hx].
    assert (B : b = true) by (eapply adj_split; eauto). rewrite B in LP.
    apply HV; auto.
    + apply (OP (Some 2)); [rewrite LP; cbn; auto|]. cbn [verts]. rewrite RS.
      cbn [subs_of] in S. injection S as <-. cbn; auto.
    + apply (OP (Some 1)); [rewrite LP; cbn; auto|]. cbn [verts]. rewrite RS.
      cbn [subs_of] in S. injection S as <-. cbn; auto.
  - cbn [vpos]. apply (ON p k Hp Hx).
  - destruct (HG j p) as [Z|(M & J & w & W & Z)]; auto; [apply in_or_app; auto|rewrite Z; lra|].
    subst j. rewrite Z. rewrite M in LN, S. cbn [split_of fst snd] in LN. rewrite LN in Hp.
    apply in_map_iff in Hp. destruct Hp as (k & <- & Hk). cbn [verts] in Hx. rewrite RS in Hx.
    destruct (nth_error l k) as [s|] eqn:E; [|destruct Hx].
    assert (B : negb b = true).
    { eapply adj_split; eauto. destruct b; exact Hk. }
    apply negb_true_iff in B. rewrite B in LN.
    apply HV'; auto.
    + apply (ON (Some 2)); [rewrite LN; cbn; auto|]. cbn [verts]. rewrite RS.
      cbn [subs_of] in S. injection S as <-. cbn; auto.
    + apply (ON (Some 1)); [rewrite LN; cbn; auto|]. cbn [verts]. rewrite RS.
      cbn [subs_of] in S. injection S as <-. cbn; auto.
Qed.
End Corner.

(** Areas. *)
Lemma cut_area phi e sd mxe mxn r m rs rn l : cut phi e sd mxe mxn r m rs rn l ->
  lsum (map (fun p => area (map (vpos e r) (verts r p))) (r_pos r ++ r_neg r)) = area (map (e_pt e) (seq 0 4)).
Proof.
  intros C. pose proof (c_in _ _ _ _ _ _ _ _ _ _ C) as IN. pose proof (c_subs _ _ _ _ _ _ _ _ _ _ C) as S.
  rewrite <- (area_sum e (xi_of phi e) mxn m rs rn l IN S).
  destruct (c_lists _ _ _ _ _ _ _ _ _ _ C) as (LP & LN). cbv zeta in LP, LN. set (b := isP _) in LP, LN. clearbody b.
  assert (F : forall p, area (map (vpos e r) (verts r p)) =
     area (map (pos_of e (made_of e (xi_of phi e) mxn m rs)) (match p with None => [Old 0; Old 1; Old 2; Old 3] | Some k =>
        match nth_error l k with Some s => s_vert s | None => [] end end))).
  { intros p. unfold verts. rewrite (c_rsubs _ _ _ _ _ _ _ _ _ _ C). f_equal. apply map_ext. intros x.
    eapply vpos_cut; eauto. }
  rewrite (map_ext _ _ F). rewrite LP, LN. clear F LP LN C.
  set (ms := made_of _ _ _ _ _). clearbody ms.
  cases IN; cbv [subs_of Nat.eqb Nat.add] in S; injection S as <-; destruct b;
    unfold lsum, sub_area; cbn [split_of Nat.eqb Nat.add fst snd map app nth_error fold_right s_vert]; ring.
Qed.
Lemma cut_area_nonneg phi e sd mxe mxn r m rs rn l p : cut phi e sd mxe mxn r m rs rn l ->
  convex_ccw (e_pt e) -> In p (r_pos r ++ r_neg r) -> (0 <= area (map (vpos e r) (verts r p)))%R.
Proof.
  intros C CV Hp. pose proof (c_in _ _ _ _ _ _ _ _ _ _ C) as IN. pose proof (c_subs _ _ _ _ _ _ _ _ _ _ C) as S.
  destruct (c_lists _ _ _ _ _ _ _ _ _ _ C) as (LP & LN). cbv zeta in LP, LN.
  rewrite LP, LN, <- map_app in Hp. apply in_map_iff in Hp. destruct Hp as (k & <- & Hk).
  cbn [verts]. rewrite (c_rsubs _ _ _ _ _ _ _ _ _ _ C). destruct (nth_error l k) as [s|] eqn:E.
  - apply nth_error_In in E.
    pose proof (area_nonneg e (xi_of phi e) mxn m rs rn l s IN S CV (xi_01 phi e) E) as A.
    unfold sub_area in A. erewrite map_ext; [exact A|]. intros x. eapply vpos_cut; eauto.
  - cbn. lra.
Qed.

(** ** Ids *)
Lemma wrap_small n : (n < 2 ^ 32)%N -> wrap n = n.
Proof. apply N.mod_small. Qed.
Lemma subs_len m rs rn l : In (m, rs, rn) occurring -> subs_of m rs rn = Ok l -> length l <= 4.
Proof. intros IN S. cases IN; cbv [subs_of Nat.eqb Nat.add] in S; injection S as <-; cbn; lia. Qed.

(** ** Reference coordinates *)
Lemma bil_side p k x : k < 4 ->
  bilinear p (along (ref_corner k) (ref_corner ((k + 1) mod 4)) x) = along (p k) (p ((k + 1) mod 4)) x.
Proof.
  intros Hk. do 4 (destruct k as [|k];
   [cbn [ref_corner Nat.add]; change (1 mod 4) with 1; change (2 mod 4) with 2; change (3 mod 4) with 3; change (4 mod 4) with 0;
    cbv [ref_corner bilinear along];
    destruct (p 0) as [[a0 b0] c0], (p 1) as [[a1 b1] c1], (p 2) as [[a2 b2] c2], (p 3) as [[a3 b3] c3];
    cbv [bilinear along padd pscale]; apply f_equal2; [apply f_equal2|]; field|]). lia.
Qed.
Lemma bil_corner p k : k < 4 -> bilinear p (ref_corner k) = p k.
Proof.
  intros Hk. pose proof (bil_side p k 0 Hk) as H. rewrite !along_0 in H. auto.
Qed.
