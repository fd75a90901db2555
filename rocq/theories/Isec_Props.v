(** Properties C46-C49 and C70-C72: the level-set intersection of an element. *)
From Coq Require Import List Arith NArith ZArith Lia Bool Reals Lra Psatz.
From Verif Require Import Base BaseLemmas RBool Filt_Model Isec_Model Isec_Spec Isec_Proofs Isec_Proofs2 Isec_Proofs3
  Isec_Proofs4 Isec_Proofs5.
Import ListNotations.
Open Scope nat_scope.

(** ** C46: classification of the element and of its pieces *)

(** An element is reported entirely on one side exactly when all its nodal values are beyond the
    tolerance on that side. *)
Theorem C46_whole_element phi e mxe mxn r : init phi e mxe mxn = Ok r ->
  (r_onpos r = true <-> forall i, i < n_nodes e -> (tol < phi (e_pt e i))%R) /\
  (r_onneg r = true <-> forall i, i < n_nodes e -> (phi (e_pt e i) < - tol)%R).
Proof.
  intros H. pose proof tol_pos as TP.
  assert (N0 : 0 < n_nodes e) by (unfold n_nodes; destruct (e_type e); lia).
  destruct (init_inv _ _ _ _ _ H) as [M A B _ _ _ _ _ _ V|M A B _ _ _ _ _ _ V|M A B _ _ _ _ NP NN _ _|m rs rn l C NP NN].
  - rewrite A, B. split; split; auto; try discriminate. intros X. specialize (X 0 N0). specialize (V 0 N0). lra.
  - rewrite A, B. split; split; auto; try discriminate. intros X. specialize (X 0 N0). specialize (V 0 N0). lra.
  - rewrite A, B. split; split; try discriminate; intros; contradiction.
  - destruct (c_flags _ _ _ _ _ _ _ _ _ _ C) as (A & B). rewrite A, B.
    split; split; try discriminate; intros; contradiction.
Qed.

(** A sub-element reported on one side has no corner strictly on the other side: original corners
    always, and nodes made for the intersection when the level set is affine along the edges.  The
    two modes listed in the hypothesis are only correct when the corner values have the expected
    signs: a side on the level set with the rest of the element on one side, two opposite corners
    on the level set with the other two on different sides. *)
Theorem C46_pieces_partial phi e mxe mxn r : init phi e mxe mxn = Ok r ->
  (r_mode r = COLINEAR_EDGE -> ~ ((exists i, i < n_nodes e /\ (tol < phi (e_pt e i))%R) /\
                                  (exists i, i < n_nodes e /\ (phi (e_pt e i) < - tol)%R))) ->
  (r_mode r = OPPOSITE_NODES -> (exists i, i < 4 /\ (tol < phi (e_pt e i))%R) /\
                                (exists i, i < 4 /\ (phi (e_pt e i) < - tol)%R)) ->
  (forall p k, In p (r_pos r) -> In (Old k) (verts r p) -> k < 4 /\ (- tol <= phi (e_pt e k))%R) /\
  (forall p k, In p (r_neg r) -> In (Old k) (verts r p) -> k < 4 /\ (phi (e_pt e k) <= tol)%R) /\
  ((forall i, i < 4 -> affine_on phi (e_pt e i) (e_pt e ((i + 1) mod 4))) ->
   (forall p x, In p (r_pos r) -> In x (verts r p) -> (- tol <= phi (vpos e r x))%R) /\
   (forall p x, In p (r_neg r) -> In x (verts r p) -> (phi (vpos e r x) <= tol)%R)).
Proof.
  intros H GC GO. pose proof tol_pos as TP.
  assert (N4 : 4 <= n_nodes e) by (unfold n_nodes; destruct (e_type e); lia).
  (* pieces that are the element itself *)
  assert (W : forall (q : R -> Prop) (L : list (option nat)),
     (forall p, In p L -> p = None) -> (forall i, i < 4 -> In None L -> q (phi (e_pt e i))) ->
     (forall p k, In p L -> In (Old k) (verts r p) -> k < 4 /\ q (phi (e_pt e k))) /\
     (forall p x, In p L -> In x (verts r p) -> q (phi (vpos e r x)))).
  { intros q L HL HQ. split.
    - intros p k Hp Hk. pose proof (HL p Hp) as E. rewrite E in Hk, Hp. cbn in Hk.
      assert (k < 4) by (repeat (destruct Hk as [Hk|Hk]; [injection Hk as <-; lia|]); destruct Hk). auto.
    - intros p x Hp Hk. pose proof (HL p Hp) as E. rewrite E in Hk, Hp. cbn in Hk.
      repeat (destruct Hk as [<-|Hk]; [cbn; apply HQ; auto; lia|]). destruct Hk. }
  assert (WW : (forall p, In p (r_pos r) -> p = None) -> (forall p, In p (r_neg r) -> p = None) ->
     (forall i, i < 4 -> In None (r_pos r) -> (- tol <= phi (e_pt e i))%R) ->
     (forall i, i < 4 -> In None (r_neg r) -> (phi (e_pt e i) <= tol)%R) ->
     (forall p k, In p (r_pos r) -> In (Old k) (verts r p) -> k < 4 /\ (- tol <= phi (e_pt e k))%R) /\
     (forall p k, In p (r_neg r) -> In (Old k) (verts r p) -> k < 4 /\ (phi (e_pt e k) <= tol)%R) /\
     ((forall i, i < 4 -> affine_on phi (e_pt e i) (e_pt e ((i + 1) mod 4))) ->
     (forall p x, In p (r_pos r) -> In x (verts r p) -> (- tol <= phi (vpos e r x))%R) /\
     (forall p x, In p (r_neg r) -> In x (verts r p) -> (phi (vpos e r x) <= tol)%R))).
  { intros A B P Q. destruct (W (fun x => (- tol <= x)%R) _ A P). destruct (W (fun x => (x <= tol)%R) _ B Q). auto. }
  destruct (init_inv _ _ _ _ _ H) as [M A B P N _ _ _ _ V|M A B P N _ _ _ _ V|M A B _ _ _ _ NP NN L _|m rs rn l C NP NN].
  - apply WW; rewrite ?P, ?N; cbn; try (intuition congruence).
    intros i Hi _. specialize (V i ltac:(lia)). lra.
  - apply WW; rewrite ?P, ?N; cbn; try (intuition congruence).
    intros i Hi _. specialize (V i ltac:(lia)). lra.
  - destruct L as [(P & N & X & Y)|[(P & N & X)|(P & N & _ & X)]]; apply WW; rewrite ?P, ?N; cbn; try (intuition congruence).
    + intros i Hi _. destruct M as [M|M]; [apply Y; auto; lia|].
      destruct (Rle_lt_dec (- tol) (phi (e_pt e i))); auto. exfalso. apply (GC M). split; auto.
      exists i. split; auto; lia.
    + intros i Hi _. apply X. lia.
  - assert (CO : corners_ok (fun i => cl (phi (e_pt e i))) m rs rn = true).
    { destruct (c_corners _ _ _ _ _ _ _ _ _ _ C) as [X|(M & X)]; auto. exfalso.
      rewrite (c_mode _ _ _ _ _ _ _ _ _ _ C) in GO. destruct (GO M) as ((i & Hi & I) & (j & Hj & J)).
      pose proof (proj2 (exP_spec (fun i => phi (e_pt e i))) (ex_intro _ i (conj Hi I))) as X1.
      pose proof (proj2 (exN_spec (fun i => phi (e_pt e i))) (ex_intro _ j (conj Hj J))) as X2.
      unfold mixed in X. cbv beta in X, X1, X2. rewrite X1, X2 in X. discriminate. }
    destruct (corners_old _ _ _ _ _ _ _ _ _ _ C CO) as (X & Y).
    split; [exact X|]. split; [exact Y|]. intros AF. exact (corners_new _ _ _ _ _ _ _ _ _ _ C AF CO).
Qed.

(** The unit square used by the examples. *)
Definition square (i : nat) : pt :=
  match i with 0 => (0, 0, 0)%R | 1 => (1, 0, 0)%R | 2 => (1, 1, 0)%R | _ => (0, 1, 0)%R end.
Definition sq : elem := mkElem QUAD4 square 5 7.
Definition xyz (f : R -> R -> R) (p : pt) : R := match p with (x, y, _) => f x y end.

Lemma cl_0 : cl 0 = Zr.
Proof. apply cl_Zr. rewrite Rabs_R0. apply tol_pos. Qed.
Lemma cl_1 : cl 1 = Ps.
Proof. apply cl_Ps. apply tol_lt1. Qed.
Lemma cl_m1 : cl (-1) = Ng.
Proof. apply cl_Ng. pose proof tol_lt1. lra. Qed.

(** Evaluate the classes of the four corners of the unit square. *)
Ltac classes f :=
  assert (V0 : xyz f (square 0) = f 0%R 0%R) by reflexivity;
  assert (V1 : xyz f (square 1) = f 1%R 0%R) by reflexivity;
  assert (V2 : xyz f (square 2) = f 1%R 1%R) by reflexivity;
  assert (V3 : xyz f (square 3) = f 0%R 1%R) by reflexivity.

Section Square.
Variables (f : R -> R -> R) (k0 k1 k2 k3 : cls).
Hypothesis K0 : cl (f 0%R 0%R) = k0.
Hypothesis K1 : cl (f 1%R 0%R) = k1.
Hypothesis K2 : cl (f 1%R 1%R) = k2.
Hypothesis K3 : cl (f 0%R 1%R) = k3.
Lemma sq_cl i : i < 4 -> cl (xyz f (e_pt sq i)) = mk4 k0 k1 k2 k3 i.
Proof. intros Hi. do 4 (destruct i as [|i]; [cbn; assumption|]). lia. Qed.
Lemma sq_colinear : colinear (fun i => xyz f (e_pt sq i)) (seq 0 4) =
  (if onl k0 && onl k1 then Some 0 else if onl k1 && onl k2 then Some 1
   else if onl k2 && onl k3 then Some 2 else if onl k3 && onl k0 then Some 3 else None).
Proof.
  cbn [colinear seq]. change ((0 + 1) mod 4) with 1. change ((1 + 1) mod 4) with 2.
  change ((2 + 1) mod 4) with 3. change ((3 + 1) mod 4) with 0. rewrite !on_ls_cl.
  rewrite !sq_cl by lia. reflexivity.
Qed.
(** Sub-elements are built. *)
Lemma sq_cut' mxe mxn m rs rn l : let c := mk4 k0 k1 k2 k3 in
  noties c = true -> nocol c = true -> allP c = false -> allN c = false -> (nz c =? 1) && negb (mixed c) = false ->
  find_mode (nds c) (sds c) (rltb 0%R (xyz f (centroid sq) * xyz f (e_pt sq 0))%R) = Ok (m, rs, rn) -> through m = true ->
  subs_of m rs rn = Ok l -> (length l <=? 4) = true ->
  exists r, init (xyz f) sq mxe mxn = Ok r /\ cut (xyz f) sq 7 mxe mxn r m rs rn l.
Proof.
  intros c NT NC AP AN NZ F TH S L.
  assert (CE : forall i, i < 4 -> cl (xyz f (e_pt sq i)) = c i) by exact sq_cl.
  assert (NT' : noties (fun i => cl (xyz f (e_pt sq i))) = true) by (rewrite <- NT; unfold noties; cbn [seq forallb]; rewrite !CE by lia; reflexivity).
  destruct (init_noties (xyz f) sq mxe mxn eq_refl NT') as (k & E).
  assert (A1 : allP (fun i => cl (xyz f (e_pt sq i))) = false) by (rewrite <- AP; unfold allP; cbn [seq forallb]; rewrite !CE by lia; reflexivity).
  assert (A2 : allN (fun i => cl (xyz f (e_pt sq i))) = false) by (rewrite <- AN; unfold allN; cbn [seq forallb]; rewrite !CE by lia; reflexivity).
  assert (A3 : nz (fun i => cl (xyz f (e_pt sq i))) = nz c) by (unfold nz; cbn [seq filter]; rewrite !CE by lia; reflexivity).
  assert (A4 : mixed (fun i => cl (xyz f (e_pt sq i))) = mixed c) by (unfold mixed; cbn [seq existsb]; rewrite !CE by lia; reflexivity).
  assert (A5 : colinear (fun i => xyz f (e_pt sq i)) (seq 0 4) = None).
  { apply colinear_none. rewrite <- NC. unfold nocol; cbn [seq forallb]; rewrite !CE by (cbn; lia). reflexivity. }
  unfold init_cls in E. cbv zeta in E. rewrite A1, A2, A3, A4, NZ, A5 in E.
  destruct (find_quad4_eval (xyz f) sq (e_sub sq) mxe mxn c m rs rn l CE NC F TH S L) as (r & R1 & R2).
  exists r. split; [rewrite E; exact R1|exact R2].
Qed.
Lemma sq_cut mxe mxn m rs rn l : let c := mk4 k0 k1 k2 k3 in
  noties c = true -> nocol c = true -> allP c = false -> allN c = false -> (nz c =? 1) && negb (mixed c) = false ->
  (forall mid, find_mode (nds c) (sds c) mid = Ok (m, rs, rn)) -> through m = true ->
  subs_of m rs rn = Ok l -> (length l <=? 4) = true ->
  exists r, init (xyz f) sq mxe mxn = Ok r /\ cut (xyz f) sq 7 mxe mxn r m rs rn l.
Proof. intros c NT NC AP AN NZ F. apply sq_cut'; auto. Qed.
End Square.

(** A side on the level set and one corner on each side of it: the whole element is reported
    positive although a corner is strictly negative. *)
Theorem C46_colinear_refuted : exists phi e mxe mxn r, e_type e = QUAD4 /\ init phi e mxe mxn = Ok r /\
  r_mode r = COLINEAR_EDGE /\ r_pos r = [None] /\ r_neg r = [] /\ (phi (e_pt e 3) = -1)%R.
Proof.
  set (f := fun x y : R => (y * (2 * x - 1))%R).
  assert (K0 : cl (f 0 0)%R = Zr) by (unfold f; replace (0 * (2 * 0 - 1))%R with 0%R by ring; apply cl_0).
  assert (K1 : cl (f 1 0)%R = Zr) by (unfold f; replace (0 * (2 * 1 - 1))%R with 0%R by ring; apply cl_0).
  assert (K2 : cl (f 1 1)%R = Ps) by (unfold f; replace (1 * (2 * 1 - 1))%R with 1%R by ring; apply cl_1).
  assert (K3 : cl (f 0 1)%R = Ng) by (unfold f; replace (1 * (2 * 0 - 1))%R with (-1)%R by ring; apply cl_m1).
  assert (CE : forall i, i < 4 -> cl (xyz f (e_pt sq i)) = mk4 Zr Zr Ps Ng i) by (apply sq_cl; auto).
  assert (NT : noties (fun i => cl (xyz f (e_pt sq i))) = true) by (unfold noties; cbn [seq forallb]; rewrite !CE by lia; reflexivity).
  destruct (init_noties (xyz f) sq 10 10 eq_refl NT) as (k & E).
  unfold init_cls in E. cbv zeta in E.
  replace (allP _) with false in E by (unfold allP; cbn [seq forallb]; rewrite !CE by lia; reflexivity).
  replace (allN _) with false in E by (unfold allN; cbn [seq forallb]; rewrite !CE by lia; reflexivity).
  replace (nz _) with 2 in E by (unfold nz; cbn [seq filter]; rewrite !CE by lia; reflexivity).
  rewrite (sq_colinear f _ _ _ _ K0 K1 K2 K3) in E. cbn [Nat.eqb andb onl] in E.
  replace (existsb _ _) with true in E by (cbn [seq existsb]; rewrite !CE by lia; reflexivity).
  exists (xyz f), sq. do 3 eexists. split; [reflexivity|]. split; [exact E|]. cbn. repeat split. unfold f. ring.
Qed.

(** Two opposite corners on the level set and the other two both positive: a sub-element with a
    strictly positive corner is reported negative. *)
Theorem C46_opposite_nodes_refuted : exists phi e mxe mxn r p, e_type e = QUAD4 /\ init phi e mxe mxn = Ok r /\
  (forall i, i < 4 -> (0 <= phi (e_pt e i))%R) /\
  In p (r_neg r) /\ In (Old 3) (verts r p) /\ (phi (e_pt e 3) = 1)%R.
Proof.
  set (f := fun x y : R => ((x - y) * (x - y))%R).
  assert (K0 : cl (f 0 0)%R = Zr) by (unfold f; replace ((0 - 0) * (0 - 0))%R with 0%R by ring; apply cl_0).
  assert (K1 : cl (f 1 0)%R = Ps) by (unfold f; replace ((1 - 0) * (1 - 0))%R with 1%R by ring; apply cl_1).
  assert (K2 : cl (f 1 1)%R = Zr) by (unfold f; replace ((1 - 1) * (1 - 1))%R with 0%R by ring; apply cl_0).
  assert (K3 : cl (f 0 1)%R = Ps) by (unfold f; replace ((0 - 1) * (0 - 1))%R with 1%R by ring; apply cl_1).
  destruct (sq_cut f _ _ _ _ K0 K1 K2 K3 10 10 OPPOSITE_NODES 0 0 _ eq_refl eq_refl eq_refl eq_refl eq_refl
     (fun _ => eq_refl) eq_refl eq_refl eq_refl) as (r & R1 & R2).
  exists (xyz f), sq, 10%N, 10%N, r, (Some 1). split; [reflexivity|]. split; [exact R1|].
  split. { intros i _. unfold xyz, f. destruct (e_pt sq i) as [[x y] z]. apply Rle_0_sqr. }
  destruct (c_lists _ _ _ _ _ _ _ _ _ _ R2) as (LP & LN). cbv zeta in LN. cbn [ref_corner_of] in LN.
  replace (cl (xyz f (e_pt sq (0 + 1)))) with Ps in LN by (symmetry; exact K1). cbn in LN. rewrite LN.
  split; [left; reflexivity|]. split.
  - cbn [verts]. rewrite (c_rsubs _ _ _ _ _ _ _ _ _ _ R2). cbn. auto.
  - cbn. unfold f. ring.
Qed.

(** The hypotheses of C46_pieces_partial hold for a level set crossing two opposite sides. *)
Example C46_example : exists r, init (xyz (fun x y => (1 - 2 * x)%R)) sq 10 10 = Ok r /\
  r_mode r = OPPOSITE_EDGES /\ r_pos r = [Some 1] /\ r_neg r = [Some 0] /\
  (forall i, i < 4 -> affine_on (xyz (fun x y => (1 - 2 * x)%R)) (e_pt sq i) (e_pt sq ((i + 1) mod 4))).
Proof.
  set (f := fun x y : R => (1 - 2 * x)%R).
  assert (K0 : cl (f 0 0)%R = Ps) by (unfold f; replace (1 - 2 * 0)%R with 1%R by ring; apply cl_1).
  assert (K1 : cl (f 1 0)%R = Ng) by (unfold f; replace (1 - 2 * 1)%R with (-1)%R by ring; apply cl_m1).
  assert (K2 : cl (f 1 1)%R = Ng) by (unfold f; replace (1 - 2 * 1)%R with (-1)%R by ring; apply cl_m1).
  assert (K3 : cl (f 0 1)%R = Ps) by (unfold f; replace (1 - 2 * 0)%R with 1%R by ring; apply cl_1).
  destruct (sq_cut f _ _ _ _ K0 K1 K2 K3 10 10 OPPOSITE_EDGES 0 0 _ eq_refl eq_refl eq_refl eq_refl eq_refl
     (fun _ => eq_refl) eq_refl eq_refl eq_refl) as (r & R1 & R2).
  exists r. split; [exact R1|]. split; [apply (c_mode _ _ _ _ _ _ _ _ _ _ R2)|].
  destruct (c_lists _ _ _ _ _ _ _ _ _ _ R2) as (LP & LN). cbv zeta in LN, LP. cbn [ref_corner_of] in LN, LP.
  change (0 mod 4) with 0 in *.
  replace (cl (xyz f (e_pt sq 0))) with Ps in * by (symmetry; exact K0). cbn in LP, LN.
  split; [exact LP|]. split; [exact LN|].
  intros i Hi x Hx. destruct (e_pt sq i) as [[a b] c], (e_pt sq ((i + 1) mod 4)) as [[a' b'] c'].
  unfold xyz, along, f. ring.
Qed.

(** ** C47: the pieces tile the element *)

(** The signed areas of the positive and of the negative pieces add up to the area of the
    quadrilateral, provided not all nodal values equal the tolerance exactly. *)
Theorem C47_areas_add_up_partial phi e mxe mxn r : init phi e mxe mxn = Ok r ->
  (exists i, i < n_nodes e /\ phi (e_pt e i) <> tol) ->
  (lsum (map (fun p => area (map (vpos e r) (verts r p))) (r_pos r)) +
   lsum (map (fun p => area (map (vpos e r) (verts r p))) (r_neg r)) = area (map (e_pt e) (seq 0 4)))%R.
Proof.
  intros H (i0 & Hi & NE). rewrite <- lsum_app, <- map_app.
  destruct (init_inv _ _ _ _ _ H) as [M A B P N _ _ _ _ V|M A B P N _ _ _ _ V|M A B _ _ _ _ NP NN L _|m rs rn l C NP NN].
  - rewrite P, N. cbn. ring.
  - rewrite P, N. cbn. ring.
  - destruct L as [(P & N & _)|[(P & N & _)|(P & N & _ & X)]]; [rewrite P, N; cbn; ring..|].
    exfalso. apply NE, X, Hi.
  - eapply cut_area; eauto.
Qed.
(** In a convex quadrilateral every piece has non-negative area. *)
Theorem C47_pieces_nonnegative phi e mxe mxn r p : init phi e mxe mxn = Ok r -> convex_ccw (e_pt e) ->
  In p (r_pos r ++ r_neg r) -> (0 <= area (map (vpos e r) (verts r p)))%R.
Proof.
  intros H CV Hp. pose proof (parent_area_pos e CV) as AP.
  assert (W : forall q, q = None -> (0 <= area (map (vpos e r) (verts r q)))%R).
  { intros q ->. cbn [verts map vpos]. cbn [seq map] in AP. lra. }
  destruct (init_inv _ _ _ _ _ H) as [M A B P N _ _ _ _ V|M A B P N _ _ _ _ V|M A B _ _ _ _ NP NN L _|m rs rn l C NP NN].
  - rewrite P, N in Hp. apply W. cbn in Hp. intuition.
  - rewrite P, N in Hp. apply W. cbn in Hp. intuition.
  - apply W. destruct L as [(P & N & _)|[(P & N & _)|(P & N & _ & X)]]; rewrite P, N in Hp; cbn in Hp; intuition.
  - eapply cut_area_nonneg; eauto.
Qed.
(** The positive volume fraction of a convex element lies between 0 and 1. *)
Theorem C47_fraction_partial phi e mxe mxn r : init phi e mxe mxn = Ok r -> convex_ccw (e_pt e) ->
  (exists i, i < n_nodes e /\ phi (e_pt e i) <> tol) ->
  (0 <= positive_fraction e r <= 1)%R /\
  (positive_fraction e r * area (map (e_pt e) (seq 0 4)) =
   area (map (e_pt e) (seq 0 4)) - lsum (map (fun p => area (map (vpos e r) (verts r p))) (r_neg r)))%R.
Proof.
  intros H CV NE. pose proof (parent_area_pos e CV) as AP.
  pose proof (C47_areas_add_up_partial _ _ _ _ _ H NE) as S.
  assert (PP : forall p, In p (r_pos r) -> (0 <= area (map (vpos e r) (verts r p)))%R)
    by (intros; eapply C47_pieces_nonnegative; eauto; apply in_or_app; auto).
  assert (PN : forall p, In p (r_neg r) -> (0 <= area (map (vpos e r) (verts r p)))%R)
    by (intros; eapply C47_pieces_nonnegative; eauto; apply in_or_app; auto).
  assert (NNL : forall L : list (option nat), (forall p, In p L -> (0 <= area (map (vpos e r) (verts r p)))%R) ->
     (0 <= lsum (map (fun p => area (map (vpos e r) (verts r p))) L))%R).
  { intros L. induction L as [|q L IH]; intros HL; unfold lsum; cbn [map fold_right]; [lra|].
    fold (lsum (map (fun p => area (map (vpos e r) (verts r p))) L)).
    pose proof (HL q (or_introl eq_refl)). assert (0 <= lsum (map (fun p => area (map (vpos e r) (verts r p))) L))%R by (apply IH; intros; apply HL; right; auto).
    lra. }
  unfold positive_fraction, volume.
  rewrite (map_ext_in _ (fun p => area (map (vpos e r) (verts r p))) (r_pos r)).
  2: { intros p Hp. apply Rabs_right, Rle_ge, PP, Hp. }
  rewrite (Rabs_right (area (map (e_pt e) (seq 0 4)))) by lra.
  set (A := lsum (map _ (r_pos r))) in *. set (B := lsum (map _ (r_neg r))) in *.
  assert (HA : (0 <= A)%R) by (apply NNL, PP). assert (HB : (0 <= B)%R) by (apply NNL, PN).
  set (T := area (map (e_pt e) (seq 0 4))) in *. clearbody A B T. split; [split|].
  - unfold Rdiv. apply Rmult_le_pos; auto. apply Rlt_le, Rinv_0_lt_compat; lra.
  - apply Rmult_le_reg_r with T; auto. unfold Rdiv. rewrite Rmult_assoc, Rinv_l, Rmult_1_r by lra. lra.
  - unfold Rdiv. rewrite Rmult_assoc, Rinv_l by lra. lra.
Qed.
Example C47_example : convex_ccw (e_pt sq).
Proof. unfold convex_ccw, sq, square, tri; cbn. repeat split; lra. Qed.

(** When every nodal value equals the tolerance, the element is in neither list and its area is
    lost. *)
Theorem C47_all_tied_refuted : exists phi e mxe mxn r, e_type e = QUAD4 /\ convex_ccw (e_pt e) /\
  init phi e mxe mxn = Ok r /\ r_pos r = [] /\ r_neg r = [].
Proof.
  exists (fun _ => tol), sq, 10%N, 10%N. pose proof tol_pos as TP. pose proof big_pos as BP.
  assert (H : exists r, init (fun _ => tol) sq 10 10 = Ok r /\ r_pos r = [] /\ r_neg r = []).
  { unfold init. cbn [e_type sq]. unfold init_ref. cbv zeta. change (n_nodes sq) with 4.
    pose proof (min_le (fun _ => tol) 4 0 ltac:(lia)) as M1. pose proof (max_ge (fun _ => tol) 4 0 ltac:(lia)) as M2.
    assert (M3 : sc_min (scan_nodes (fun _ => tol) 4) = tol).
    { destruct (Rle_lt_or_eq_dec _ _ M1) as [L|L]; auto. exfalso.
      assert (X : (sc_min (scan_nodes (fun _ => tol) 4) < sc_min (scan_nodes (fun _ => tol) 4))%R); [|lra].
      apply (min_gt (fun _ => tol) 4); [lra|]. intros; lra. }
    assert (M4 : sc_max (scan_nodes (fun _ => tol) 4) = tol).
    { destruct (Rle_lt_or_eq_dec _ _ M2) as [L|L]; auto. exfalso.
      assert (X : (sc_max (scan_nodes (fun _ => tol) 4) < sc_max (scan_nodes (fun _ => tol) 4))%R); [|lra].
      apply (max_lt (fun _ => tol) 4); [lra|]. intros; lra. }
    assert (CT : cl tol = Tie) by (apply cl_Tie; apply Rabs_right; lra).
    rewrite M3, M4, (scan_n4 (fun _ => tol) 4) by auto.
    unfold nz. cbn [seq filter]. rewrite CT. cbn [onl length Nat.eqb andb].
    cbn [colinear]. rewrite !on_ls_cl, CT. cbn [onl andb].
    replace (rltb tol tol) with false by (symmetry; apply rltb_false; lra).
    replace (rltb tol (- tol)) with false by (symmetry; apply rltb_false; lra).
    eexists; repeat split. }
  destruct H as (r & H1 & H2 & H3). exists r. split; [reflexivity|]. split; [apply C47_example|]. auto.
Qed.

(** ** C48: the search on an edge *)
Theorem C48_strictly_inside phi p0 p1 : (phi p0 * phi p1 < 0)%R -> (0 < edge_xi phi p0 p1 < 1)%R.
Proof. intros H. apply (edge_xi_point phi p0 p1 H). Qed.
Theorem C48_exact_if_affine phi p0 p1 : (phi p0 * phi p1 < 0)%R -> affine_on phi p0 p1 ->
  phi (along p0 p1 (edge_xi phi p0 p1)) = 0%R.
Proof. intros; apply edge_xi_affine; auto. Qed.
(** The node made there lies strictly between the two bounding nodes; if the level set is affine
    along the edges it is zero at all nodes made, except the hanging one. *)
Theorem C48_nodes_made phi e mxe mxn r nd : init phi e mxe mxn = Ok r -> In nd (r_made r) ->
  exists x, (0 < x < 1)%R /\ fst (m_bound nd) < 4 /\ snd (m_bound nd) = (fst (m_bound nd) + 1) mod 4 /\
    m_pt nd = along (e_pt e (fst (m_bound nd))) (e_pt e (snd (m_bound nd))) x /\
    (m_hang nd = false -> affine_on phi (e_pt e (fst (m_bound nd))) (e_pt e (snd (m_bound nd))) -> phi (m_pt nd) = 0%R).
Proof.
  intros H Hn.
  destruct (init_inv _ _ _ _ _ H) as [M A B P N _ E _ _ V|M A B P N _ E _ _ V|M A B _ E _ _ NP NN L _|m rs rn l C NP NN];
    try (rewrite E in Hn; destruct Hn).
  pose proof Hn as Hn'. rewrite (c_made _ _ _ _ _ _ _ _ _ _ C) in Hn.
  assert (T : through m = true) by (pose proof (c_in _ _ _ _ _ _ _ _ _ _ C) as IN; clear - IN; cases IN; reflexivity).
  assert (M4 : forall k, k mod 4 < 4) by (intros; apply Nat.mod_upper_bound; lia).
  destruct (made_cases _ _ _ _ _ _ Hn (made_mode _ _ _ _ _ _ Hn T)) as [(k & Hk & id & D)|(M & id & D)].
  - destruct (cut_xi _ _ _ _ _ _ _ _ _ _ C k Hk) as (X1 & X2). exists (xi_of phi e (k mod 4)).
    subst nd. rewrite made_on_pt. cbn [make_on m_bound fst snd m_hang].
    split; [exact X2|]. split; [auto|]. split; [|split; [reflexivity|]].
    + rewrite mod_succ. reflexivity.
    + intros _ AF. rewrite X1. apply edge_xi_affine; auto. apply (c_sides _ _ _ _ _ _ _ _ _ _ C k Hk).
  - exists (1 - xi_of phi e (rs mod 4))%R.
    destruct (cut_xi _ _ _ _ _ _ _ _ _ _ C rs) as (X1 & X2); [subst m; left; reflexivity|].
    subst nd. rewrite made_back_pt. cbn [make_back m_bound fst snd m_hang].
    split; [lra|]. split; [auto|]. split; [|split; [reflexivity|]].
    + rewrite mod_succ. reflexivity.
    + discriminate.
Qed.
Example C48_example : (xyz (fun x y => (1 - 2 * x)%R) (0, 0, 0) * xyz (fun x y => (1 - 2 * x)%R) (1, 0, 0) < 0)%R /\
  affine_on (xyz (fun x y => (1 - 2 * x)%R)) (0, 0, 0)%R (1, 0, 0)%R /\
  edge_xi (xyz (fun x y => (1 - 2 * x)%R)) (0, 0, 0)%R (1, 0, 0)%R = (/ 2)%R.
Proof.
  set (f := fun x y : R => (1 - 2 * x)%R).
  assert (A : (xyz f (0, 0, 0) * xyz f (1, 0, 0) < 0)%R) by (unfold xyz, f; lra).
  assert (B : affine_on (xyz f) (0, 0, 0)%R (1, 0, 0)%R) by (intros x Hx; unfold xyz, along, f; ring).
  split; [exact A|]. split; [exact B|].
  pose proof (C48_exact_if_affine _ _ _ A B) as E. set (t := edge_xi _ _ _) in *. clearbody t.
  unfold xyz, along, f in E. lra.
Qed.

(** ** C49: ids of sub-elements *)

(** With the bound on the element ids given to init (libMesh: one past the largest id), and no
    overflow of the 32-bit id, sub-element ids are no mesh ids, and differ between sub-elements and
    between elements. *)
Theorem C49_ids_unique_partial phi phi' e e' mx mxn mxn' r r' :
  init phi e mx mxn = Ok r -> init phi' e' mx mxn' = Ok r' ->
  (e_id e < mx)%N -> (e_id e' < mx)%N -> (5 * mx <= 2 ^ 32)%N ->
  (forall id, In id (r_ids r) -> (mx <= id)%N) /\ NoDup (r_ids r) /\
  (e_id e <> e_id e' -> forall id, In id (r_ids r) -> In id (r_ids r') -> False).
Proof.
  intros H H' L L' OV.
  assert (K : forall phi e mxn r, init phi e mx mxn = Ok r -> (e_id e < mx)%N ->
     exists n, n <= 4 /\ r_ids r = map (fun i => (mx + e_id e * 4 + N.of_nat i)%N) (seq 0 n)).
  { clear - OV. intros phi e mxn r H L.
    destruct (init_inv _ _ _ _ _ H) as [M A B P N _ _ E _ V|M A B P N _ _ E _ V|M A B _ _ E _ NP NN Q _|m rs rn l C NP NN];
    try (exists 0; split; [lia|rewrite E; reflexivity]).
    pose proof (subs_len _ _ _ _ (c_in _ _ _ _ _ _ _ _ _ _ C) (c_subs _ _ _ _ _ _ _ _ _ _ C)) as LE.
    exists (length l). split; auto. rewrite (c_ids _ _ _ _ _ _ _ _ _ _ C).
    apply map_ext_in. intros i Hi. apply in_seq in Hi. unfold max_elem_divs. apply wrap_small. lia. }
  destruct (K _ _ _ _ H L) as (n & N4 & E). destruct (K _ _ _ _ H' L') as (n' & N4' & E').
  split; [|split].
  - intros id Hid. rewrite E in Hid. apply in_map_iff in Hid. destruct Hid as (i & <- & _). lia.
  - rewrite E. apply FinFun.Injective_map_NoDup; [|apply seq_NoDup]. intros i j X. lia.
  - intros NE id I I'. rewrite E in I. rewrite E' in I'. apply in_map_iff in I, I'.
    destruct I as (i & <- & Hi). destruct I' as (j & X & Hj). apply in_seq in Hi, Hj. lia.
Qed.
(** Without the bound the id wraps around and coincides with the id of an element of the mesh. *)
Theorem C49_wraps_refuted : exists phi e mx mxn r id, init phi e mx mxn = Ok r /\ (e_id e < mx)%N /\
  (mx < 2 ^ 32)%N /\ In id (r_ids r) /\ (id < mx)%N.
Proof.
  set (f := fun x y : R => (1 - 2 * x)%R).
  assert (K0 : cl (f 0 0)%R = Ps) by (unfold f; replace (1 - 2 * 0)%R with 1%R by ring; apply cl_1).
  assert (K1 : cl (f 1 0)%R = Ng) by (unfold f; replace (1 - 2 * 1)%R with (-1)%R by ring; apply cl_m1).
  assert (K2 : cl (f 1 1)%R = Ng) by (unfold f; replace (1 - 2 * 1)%R with (-1)%R by ring; apply cl_m1).
  assert (K3 : cl (f 0 1)%R = Ps) by (unfold f; replace (1 - 2 * 0)%R with 1%R by ring; apply cl_1).
  set (e := mkElem QUAD4 square (2 ^ 30 - 1) 7).
  assert (CE : forall i, i < 4 -> cl (xyz f (e_pt e i)) = mk4 Ps Ng Ng Ps i).
  { intros i Hi. do 4 (destruct i as [|i]; [cbn; assumption|]). lia. }
  assert (NT : noties (fun i => cl (xyz f (e_pt e i))) = true) by (unfold noties; cbn [seq forallb]; rewrite !CE by lia; reflexivity).
  destruct (init_noties (xyz f) e (2 ^ 30) 10 eq_refl NT) as (k & E).
  destruct (find_quad4_eval (xyz f) e 7 (2 ^ 30) 10 (mk4 Ps Ng Ng Ps) OPPOSITE_EDGES 0 0 _ CE eq_refl eq_refl eq_refl eq_refl eq_refl)
    as (r & R1 & R2).
  unfold init_cls in E. cbv zeta in E.
  replace (allP _) with false in E by (unfold allP; cbn [seq forallb]; rewrite !CE by lia; reflexivity).
  replace (allN _) with false in E by (unfold allN; cbn [seq forallb]; rewrite !CE by lia; reflexivity).
  replace (nz _) with 0 in E by (unfold nz; cbn [seq filter]; rewrite !CE by lia; reflexivity).
  replace (colinear _ _) with (@None nat) in E.
  2: { symmetry. apply colinear_none. unfold nocol; cbn [seq forallb]; rewrite !CE by (cbn; lia). reflexivity. }
  cbn [Nat.eqb andb] in E. change (e_sub e) with 7%N in E. rewrite R1 in E.
  exists (xyz f), e, (2 ^ 30)%N, 10%N, r, (2 ^ 30 - 4)%N.
  split; [exact E|]. split; [reflexivity|]. split; [reflexivity|]. split; [|reflexivity].
  rewrite (c_ids _ _ _ _ _ _ _ _ _ _ R2). cbn [length seq map]. left. reflexivity.
Qed.
Example C49_example : exists r, init (xyz (fun x y => (1 - 2 * x)%R)) sq 10 10 = Ok r /\ r_ids r = [30; 31]%N.
Proof.
  set (f := fun x y : R => (1 - 2 * x)%R).
  assert (K0 : cl (f 0 0)%R = Ps) by (unfold f; replace (1 - 2 * 0)%R with 1%R by ring; apply cl_1).
  assert (K1 : cl (f 1 0)%R = Ng) by (unfold f; replace (1 - 2 * 1)%R with (-1)%R by ring; apply cl_m1).
  assert (K2 : cl (f 1 1)%R = Ng) by (unfold f; replace (1 - 2 * 1)%R with (-1)%R by ring; apply cl_m1).
  assert (K3 : cl (f 0 1)%R = Ps) by (unfold f; replace (1 - 2 * 0)%R with 1%R by ring; apply cl_1).
  destruct (sq_cut f _ _ _ _ K0 K1 K2 K3 10 10 OPPOSITE_EDGES 0 0 _ eq_refl eq_refl eq_refl eq_refl eq_refl
     (fun _ => eq_refl) eq_refl eq_refl eq_refl) as (r & R1 & R2).
  exists r. split; [exact R1|]. rewrite (c_ids _ _ _ _ _ _ _ _ _ _ R2). reflexivity.
Qed.

(** ** C70: a mode is found *)

(** A four-node element none of whose nodal values has exactly the magnitude of the tolerance is
    always classified. *)
Theorem C70_mode_found_partial phi e mxe mxn : e_type e = QUAD4 ->
  (forall i, i < 4 -> Rabs (phi (e_pt e i)) <> tol) -> exists r, init phi e mxe mxn = Ok r.
Proof. apply init_total. Qed.
Example C70_example : forall i, i < 4 -> Rabs (xyz (fun x y => (1 - 2 * x)%R) (e_pt sq i)) <> tol.
Proof.
  intros i Hi E. pose proof tol_lt1 as T. revert E.
  do 4 (destruct i as [|i]; [cbn; unfold Rabs; destruct (Rcase_abs _); lra|]). lia.
Qed.
(** A value equal to the tolerance next to values on the other side makes the search stop with an
    assertion. *)
Theorem C70_tie_refuted : exists phi e mxe mxn, e_type e = QUAD4 /\ convex_ccw (e_pt e) /\
  init phi e mxe mxn = Fault AssertFailed.
Proof.
  pose proof tol_pos as TP. pose proof tol_lt1 as T1. pose proof big_pos as BP.
  set (f := fun x y : R => (tol - (tol + 1) * (x + y - x * y))%R).
  exists (xyz f), sq, 10%N, 10%N. split; [reflexivity|]. split; [apply C47_example|].
  set (v := fun i => xyz f (e_pt sq i)).
  assert (V0 : v 0 = tol) by (unfold v, f; cbn; ring).
  assert (V1 : v 1 = (-1)%R) by (unfold v, f; cbn; ring).
  assert (V2 : v 2 = (-1)%R) by (unfold v, f; cbn; ring).
  assert (V3 : v 3 = (-1)%R) by (unfold v, f; cbn; ring).
  assert (C0 : cl (v 0) = Tie) by (rewrite V0; apply cl_Tie, Rabs_right; lra).
  assert (C1 : cl (v 1) = Ng) by (rewrite V1; apply cl_m1).
  assert (C2 : cl (v 2) = Ng) by (rewrite V2; apply cl_m1).
  assert (C3 : cl (v 3) = Ng) by (rewrite V3; apply cl_m1).
  unfold init. cbn [e_type sq]. unfold init_ref. cbv zeta. fold v. change (n_nodes sq) with 4.
  assert (MN : sc_min (scan_nodes v 4) = (-1)%R).
  { pose proof (min_le v 4 1 ltac:(lia)) as A. rewrite V1 in A.
    destruct (Rle_lt_or_eq_dec _ _ A) as [L|L]; auto. exfalso.
    assert (X : (sc_min (scan_nodes v 4) < sc_min (scan_nodes v 4))%R); [|lra].
    apply (min_gt v 4); [lra|]. intros i Hi. do 4 (destruct i as [|i]; [lra|]). lia. }
  assert (MX : sc_max (scan_nodes v 4) = tol).
  { pose proof (max_ge v 4 0 ltac:(lia)) as A. rewrite V0 in A.
    destruct (Rle_lt_or_eq_dec _ _ A) as [L|L]; auto. exfalso.
    assert (X : (sc_max (scan_nodes v 4) < sc_max (scan_nodes v 4))%R); [|lra].
    apply (max_lt v 4); [lra|]. intros i Hi. do 4 (destruct i as [|i]; [lra|]). lia. }
  rewrite MN, MX, (scan_n4 v 4) by auto.
  replace (Rabs (-1)) with 1%R by (rewrite Rabs_left; lra). rewrite (Rabs_right tol) by lra.
  replace (rltb tol (-1)) with false by (symmetry; apply rltb_false; lra).
  replace (rltb tol (- tol)) with false by (symmetry; apply rltb_false; lra).
  replace (rltb 1 tol) with false by (symmetry; apply rltb_false; lra).
  replace (rltb tol tol) with false by (symmetry; apply rltb_false; lra).
  replace (rltb (-1 * tol) 0) with true by (symmetry; apply rltb_true; lra).
  rewrite andb_false_r.
  assert (NC : colinear v (seq 0 4) = None).
  { apply colinear_none. unfold nocol; cbn [seq forallb]. change ((0 + 1) mod 4) with 1. change ((1 + 1) mod 4) with 2.
    change ((2 + 1) mod 4) with 3. change ((3 + 1) mod 4) with 0. rewrite C0, C1, C2, C3. reflexivity. }
  rewrite NC. unfold find_quad4. cbv zeta. fold v.
  rewrite (find_mode_ext (node_hit v) (nds (mk4 Tie Ng Ng Ng)) (side_hit v) (sds (mk4 Tie Ng Ng Ng))).
  - reflexivity.
  - intros i Hi. rewrite node_hit_cl. unfold nds. do 4 (destruct i as [|i]; [rewrite ?C0, ?C1, ?C2, ?C3; reflexivity|]). lia.
  - intros i Hi. rewrite side_hit_cl. unfold sds.
    do 4 (destruct i as [|i]; [change ((0 + 1) mod 4) with 1; change ((1 + 1) mod 4) with 2;
    change ((2 + 1) mod 4) with 3; change ((3 + 1) mod 4) with 0; rewrite ?C0, ?C1, ?C2, ?C3; reflexivity|]). lia.
Qed.

(** ** C71: reference coordinates of the nodes made *)

(** The bilinear map of the element takes the reference coordinates of a node made for the
    intersection to its position. *)
Theorem C71_reference_coordinates phi e mxe mxn r nd : init phi e mxe mxn = Ok r -> In nd (r_made r) ->
  bilinear (e_pt e) (m_loc nd) = m_pt nd.
Proof.
  intros H Hn.
  destruct (init_inv _ _ _ _ _ H) as [M A B P N _ E _ _ V|M A B P N _ E _ _ V|M A B _ E _ _ NP NN L _|m rs rn l C NP NN];
    try (rewrite E in Hn; destruct Hn).
  rewrite (c_made _ _ _ _ _ _ _ _ _ _ C) in Hn.
  assert (T : through m = true) by (pose proof (c_in _ _ _ _ _ _ _ _ _ _ C) as IN; clear - IN; cases IN; reflexivity).
  assert (M4 : forall k, k mod 4 < 4) by (intros; apply Nat.mod_upper_bound; lia).
  destruct (made_cases _ _ _ _ _ _ Hn (made_mode _ _ _ _ _ _ Hn T)) as [(k & Hk & id & D)|(M & id & D)]; subst nd.
  - rewrite made_on_pt. cbn [make_on m_loc]. rewrite along_padd, <- mod_succ. apply bil_side; auto.
  - rewrite made_back_pt. cbn [make_back m_loc]. rewrite along_back, <- mod_succ. apply bil_side; auto.
Qed.

(** ** C72: subdomain of the sub-elements *)
Theorem C72_subdomain_partial phi e mxe mxn r s : e_type e = QUAD4 -> init phi e mxe mxn = Ok r ->
  In s (r_subdom r) -> s = e_sub e.
Proof.
  intros T H Hs.
  destruct (init_inv _ _ _ _ _ H) as [M A B P N _ _ _ E V|M A B P N _ _ _ E V|M A B _ _ _ E NP NN L _|m rs rn l C NP NN];
    try (rewrite E in Hs; destruct Hs).
  rewrite (c_sub _ _ _ _ _ _ _ _ _ _ C) in Hs. apply in_map_iff in Hs. destruct Hs as (x & <- & _).
  unfold subdom_of. rewrite T. reflexivity.
Qed.
(** For a nine-node element the sub-elements get subdomain 0 instead of that of the parent. *)
Theorem C72_quad9_refuted : exists phi e mxe mxn r s, e_type e = QUAD9 /\ init phi e mxe mxn = Ok r /\
  In s (r_subdom r) /\ s <> e_sub e.
Proof.
  pose proof tol_pos as TP. pose proof tol_lt1 as T1.
  set (f := fun x y : R => (1 - 2 * x)%R).
  set (e := mkElem QUAD9 square 5 7).
  set (v := fun i => xyz f (e_pt e i)).
  assert (V0 : v 0 = 1%R) by (unfold v, f; cbn; ring).
  assert (V1 : v 1 = (-1)%R) by (unfold v, f; cbn; ring).
  assert (V2 : v 2 = (-1)%R) by (unfold v, f; cbn; ring).
  assert (V3 : v 3 = 1%R) by (unfold v, f; cbn; ring).
  assert (CE : forall i, i < 4 -> cl (v i) = mk4 Ps Ng Ng Ps i).
  { intros i Hi. do 4 (destruct i as [|i]; [rewrite ?V0, ?V1, ?V2, ?V3; first [apply cl_1|apply cl_m1]|]). lia. }
  destruct (find_quad4_eval (xyz f) e 0 10 10 (mk4 Ps Ng Ng Ps) OPPOSITE_EDGES 0 0 _ CE eq_refl eq_refl eq_refl eq_refl eq_refl)
    as (r & R1 & R2).
  exists (xyz f), e, 10%N, 10%N, r, 0%N. split; [reflexivity|].
  split; [|split; [rewrite (c_sub _ _ _ _ _ _ _ _ _ _ R2); left; reflexivity|discriminate]].
  unfold init. cbn [e_type e]. unfold init_ref. cbv zeta. fold v. change (n_nodes e) with 9.
  pose proof (min_le v 9 1 ltac:(lia)) as M1. pose proof (max_ge v 9 0 ltac:(lia)) as M2. rewrite V1 in M1. rewrite V0 in M2.
  replace (rltb tol (sc_min (scan_nodes v 9))) with false by (symmetry; apply rltb_false; lra).
  replace (rltb (sc_max (scan_nodes v 9)) (- tol)) with false by (symmetry; apply rltb_false; lra).
  rewrite (scan_n4 v 9) by auto.
  replace (nz (fun i => cl (v i))) with 0 by (unfold nz; cbn [seq filter]; rewrite !CE by lia; reflexivity).
  cbn [Nat.eqb andb].
  replace (colinear v (seq 0 4)) with (@None nat); [exact R1|].
  symmetry. apply colinear_none. unfold nocol; cbn [seq forallb]; rewrite !CE by (cbn; lia). reflexivity.
Qed.

Print Assumptions C46_whole_element.
Print Assumptions C46_pieces_partial.
Print Assumptions C46_colinear_refuted.
Print Assumptions C46_opposite_nodes_refuted.
Print Assumptions C47_areas_add_up_partial.
Print Assumptions C47_pieces_nonnegative.
Print Assumptions C47_fraction_partial.
Print Assumptions C47_all_tied_refuted.
Print Assumptions C48_strictly_inside.
Print Assumptions C48_exact_if_affine.
Print Assumptions C48_nodes_made.
Print Assumptions C49_ids_unique_partial.
Print Assumptions C49_wraps_refuted.
Print Assumptions C70_mode_found_partial.
Print Assumptions C70_tie_refuted.
Print Assumptions C71_reference_coordinates.
Print Assumptions C72_subdomain_partial.
Print Assumptions C72_quad9_refuted.
