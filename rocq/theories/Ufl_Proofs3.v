(** Lemmas for C192, C193: the sweep, the search and the critical root of the UG solver. *)
From Coq Require Import Reals List Arith Lia Lra Bool Permutation Sorted.
From Verif Require Import Base BaseLemmas Flut_Model Flut_Spec Flut_Proofs Flut_Proofs2 Ufl_Model Ufl_Spec Ufl_Proofs2.
Import ListNotations.
Open Scope R_scope.

(** ** no entry twice *)
Lemma neighbours_in l a b : neighbours l a b -> In a l /\ In b l.
Proof. intros (l1 & l2 & ->). split; apply in_or_app; right; simpl; auto. Qed.
Lemma neighbours_neq l a b : NoDup (map k_ref l) -> neighbours l a b -> a <> b.
Proof.
  intros H (l1 & l2 & ->) ->. rewrite map_app in H. simpl in H. apply NoDup_remove_2 in H.
  apply H. apply in_or_app. right. now left.
Qed.
Lemma nodup_crosses i l : NoDup (map k_ref l) -> NoDup (map snd (crosses_exp i l)).
Proof.
  induction l as [|a l IH]; [constructor|]. destruct l as [|b l]; [constructor|].
  cbn [crosses_exp]. intros H. inversion H as [|? ? Ha Hb]; subst. rewrite map_app. apply NoDup_app_intro; auto.
  - unfold cross_exp. destruct (exam i a b); [|constructor]. destruct (_ && _); [repeat constructor; auto|].
    destruct (_ && _); repeat constructor; auto.
  - intros x H1 H2.
    assert (Hx : kx_first x = a \/ kx_second x = a).
    { unfold cross_exp in H1. destruct (exam i a b); [|destruct H1]. destruct (_ && _).
      - simpl in H1. destruct H1 as [<-|[]]; simpl; auto.
      - destruct (_ && _); simpl in H1; [destruct H1 as [<-|[]]; simpl; auto|destruct H1]. }
    apply in_map_iff in H2. destruct H2 as ((k & x') & E & H2). simpl in E. subst x'.
    apply (proj1 (in_crosses_exp i (b :: l) k x)) in H2. destruct H2 as (a' & b' & Hc & _ & C). apply neighbours_in in Hc.
    assert (In a (b :: l)).
    { destruct C as [(_ & _ & ->)|(_ & _ & ->)]; simpl in Hx; destruct Hx; subst; tauto. }
    apply Ha. exact (in_map k_ref (b :: l) a H0).
Qed.
Lemma ug_identify_nodup inc m xs : ug_identify inc m = Ok xs -> NoDup (map k_ref (map snd m)) -> NoDup (map snd xs).
Proof.
  intros E Hd. apply ug_identify_perm in E. destruct E as (s0 & t & negs & Em & Hn & Hneg & Ho & P).
  apply (Permutation_NoDup (l := map snd (divs s0 ++ flat_map (fun i => umode_exp inc (nth i negs false) i (rev (map snd m))) (seq 0 (length (k_roots s0)))))).
  { apply Permutation_map. symmetry. exact P. }
  assert (Hd' : NoDup (map k_ref (rev (map snd m)))) by (rewrite map_rev; apply NoDup_rev; auto).
  set (l := rev (map snd m)) in *. clearbody l.
  rewrite map_app. apply NoDup_app_intro.
  - unfold divs. destruct (rlt _ _); [|constructor]. rewrite flat_map_concat_map, concat_map, map_map, <- flat_map_concat_map. apply NoDup_flat_map.
    + apply seq_NoDup.
    + intros i _. unfold div_exp. destruct (nth_error _ _); [|constructor]. destruct (_ && _); repeat constructor; auto.
    + intros i j x _ _ Hi Hj. unfold div_exp in *. destruct (nth_error (k_roots s0) i); [|destruct Hi]. destruct (nth_error (k_roots s0) j); [|destruct Hj].
      destruct (_ && _); [|destruct Hi]. destruct (_ && _) in Hj; [|destruct Hj]. simpl in *. destruct Hi as [<-|[]], Hj as [E|[]]. inversion E; auto.
  - rewrite flat_map_concat_map, concat_map, map_map, <- flat_map_concat_map.
    assert (Num : forall i x, In x (map snd (umode_exp inc (nth i negs false) i l)) -> kx_num x = i).
    { intros i x Hx. unfold umode_exp in Hx. destruct (nth i negs false); [destruct Hx|]. apply in_map_iff in Hx. destruct Hx as ((k & x') & E & Hx). simpl in E; subst x'.
      apply in_app_or in Hx. destruct Hx as [Hx|Hx].
      - apply (proj1 (in_crosses_exp _ _ _ _)) in Hx. destruct Hx as (a & b & _ & _ & [(_ & _ & ->)|(_ & _ & ->)]); reflexivity.
      - apply (proj1 (in_high_exp _ _ _ _ _)) in Hx. destruct Hx as (a & b & t' & _ & _ & _ & _ & _ & ->); reflexivity. }
    apply NoDup_flat_map.
    + apply seq_NoDup.
    + intros i _. unfold umode_exp. destruct (nth i negs false); [constructor|]. rewrite map_app. apply NoDup_app_intro.
      * apply nodup_crosses; auto.
      * unfold high_exp. destruct l as [|a [|b t']]; try constructor. destruct (_ && _); repeat constructor; auto.
      * intros x H1 H2. apply in_map_iff in H1, H2. destruct H1 as ((k & x1) & E1 & H1), H2 as ((k2 & x2) & E2 & H2). simpl in E1, E2; subst x1 x2.
        apply (proj1 (in_crosses_exp _ _ _ _)) in H1. apply (proj1 (in_high_exp _ _ _ _ _)) in H2.
        destruct H1 as (a & b & Hc & _ & C). apply neighbours_neq in Hc; auto. destruct H2 as (a' & b' & t' & _ & _ & _ & _ & _ & ->).
        destruct C as [(_ & _ & E)|(_ & _ & E)]; inversion E; congruence.
    + intros i j x _ _ Hi Hj. apply Num in Hi, Hj. congruence.
  - intros x H1 H2. apply in_map_iff in H1, H2. destruct H1 as ((k & x1) & E1 & H1), H2 as ((k2 & x2) & E2 & H2). simpl in E1, E2; subst x1 x2.
    apply in_divs in H1. destruct H1 as (i & r & _ & _ & _ & _ & _ & ->).
    apply in_flat_map in H2. destruct H2 as (j & _ & H2). unfold umode_exp in H2. destruct (nth j negs false); [destruct H2|].
    apply in_app_or in H2. destruct H2 as [H2|H2].
    + apply (proj1 (in_crosses_exp _ _ _ _)) in H2. destruct H2 as (a & b & _ & _ & [(_ & _ & E)|(_ & _ & E)]); discriminate.
    + apply (proj1 (in_high_exp _ _ _ _ _)) in H2. destruct H2 as (a & b & t' & _ & _ & _ & _ & _ & E); discriminate.
Qed.

(** ** no fault on a sweep of at least two solutions *)
Lemma kmax_total N i l : (i < N)%nat -> Forall (fun s => length (k_roots s) = N) l -> forall a, exists r, kmax i l a = Ok r.
Proof. intros Hi. induction 1 as [|s l Hs Hl IH]; intros a; simpl; [eauto|]. destruct (kget_total N s i Hs Hi) as (r & ->). simpl. apply IH. Qed.
Lemma if_process_total N neg i a b : (i < N)%nat -> length (k_roots a) = N -> length (k_roots b) = N -> exists p, ug_if_process neg i a (Some b) = Ok p.
Proof.
  intros Hi Ha Hb. unfold ug_if_process. destruct (kget_total N a i Ha Hi) as (r & ->). simpl. destruct (k_bad r); [eauto|].
  destruct (kget_total N b i Hb Hi) as (r' & ->). simpl. eauto.
Qed.
Lemma pairs_total N neg i l : (i < N)%nat -> Forall (fun s => length (k_roots s) = N) l -> forall xs, exists r, ug_pairs neg i l xs = Ok r.
Proof.
  intros Hi. induction 1 as [|a l Ha Hl IH]; intros xs; [simpl; eauto|]. destruct l as [|b l]; [simpl; eauto|]. cbn [ug_pairs].
  assert (X : exists r, ug_process neg i a b xs = Ok r).
  { unfold ug_process. inversion Hl; subst. destruct (if_process_total _ neg i a b Hi ltac:(auto) ltac:(auto)) as (p & ->). simpl. destruct p; [|eauto].
    destruct (kget_total _ a i eq_refl ltac:(congruence)) as (ra & ->). simpl. destruct (kget_total _ b i eq_refl ltac:(congruence)) as (rb & ->). simpl. eauto. }
  destruct X as (x1 & ->). simpl bind. apply IH.
Qed.
Lemma loop_total {A} (f : nat -> A -> outcome A) n : (forall i a, (i < n)%nat -> exists r, f i a = Ok r) -> forall a, exists r, loop n f a = Ok r.
Proof.
  induction n as [|n IH]; intros H a; simpl; [eauto|]. destruct (IH (fun i a Hi => H i a ltac:(lia)) a) as (r & ->). simpl. apply H. lia.
Qed.
Lemma ug_identify_total inc m N s0 s1 t : map snd m = s0 :: s1 :: t -> (0 < N)%nat -> Forall (fun s => length (k_roots s) = N) (map snd m) ->
  exists xs, ug_identify inc m = Ok xs.
Proof.
  intros Em HN Hl. unfold ug_identify. rewrite Em. rewrite <- Em. assert (L0 : length (k_roots s0) = N) by (rewrite Em in Hl; inversion Hl; auto).
  rewrite L0. unfold assert_. destruct (Nat.eqb_spec N 0); [lia|]. cbn [negb].
  destruct (loop_total (fun i acc => b <- kneglect (map snd m) i ;; Ok (acc ++ [b])) N) with (a := @nil bool) as (negs & ->).
  { intros i a Hi. unfold kneglect. destruct (kmax_total N i _ Hi Hl 0) as (r & ->). simpl. eauto. }
  cbn [bind].
  assert (X : exists x0, (if rlt (Rabs (k_ref s0)) tol then loop N (ug_divergence s0) [] else Ok []) = Ok x0).
  { destruct (rlt _ _); [|eauto]. apply loop_total. intros i a Hi. unfold ug_divergence. destruct (kget_total N s0 i L0 Hi) as (r & ->). simpl. eauto. }
  destruct X as (x0 & ->). cbn [bind]. apply loop_total. intros i a Hi. cbv zeta.
  assert (Hl' : Forall (fun s => length (k_roots s) = N) (rev (map snd m))) by (apply Forall_rev; auto).
  destruct (pairs_total N (nth i negs false) i _ Hi Hl' a) as (x1 & ->). cbn [bind].
  assert (Hlen : (2 <= length (rev (map snd m)))%nat) by (rewrite rev_length, Em; simpl; lia).
  destruct (rev (map snd m)) as [|a1 [|b1 t1]]; simpl in Hlen; try lia. inversion Hl' as [|? ? A1 A2]; subst. inversion A2; subst.
  unfold ug_highest. cbn [hd_error]. destruct (if_process_total _ (nth i negs false) i a1 b1 Hi ltac:(auto) ltac:(auto)) as (p & ->). cbn [bind].
  destruct (kget_total _ a1 i eq_refl ltac:(congruence)) as (r & ->). cbn [bind]. eauto.
Qed.

(** ** the sweep *)
Lemma kinsert_in k s m m' : kinsert k s m = Ok m' -> Permutation m' ((k, s) :: m).
Proof.
  revert m'. induction m as [|[j x] m IH]; simpl; intros m'.
  - intros E; inversion E; auto.
  - destruct (rlt k j); [intros E; inversion E; auto|]. destruct (rlt j k); [|discriminate].
    destruct (kinsert k s m) as [t|] eqn:E1; simpl; [|discriminate]. intros E; inversion E. rewrite (IH t eq_refl). apply perm_swap.
Qed.
Lemma kinsert_ok k s m : ~ In k (map fst m) -> exists m', kinsert k s m = Ok m'.
Proof.
  induction m as [|[j x] m IH]; simpl; intros H; [eauto|].
  destruct (rlt_spec k j); [eauto|]. destruct (rlt_spec j k); [|exfalso; apply H; left; lra]. destruct IH as (m' & ->); [tauto|]. simpl. eauto.
Qed.
Lemma kinsert_first k s m : Forall (fun e => k < fst e) m -> kinsert k s m = Ok ((k, s) :: m).
Proof. intros [|[j x] m' Hk Hm]; [reflexivity|]. simpl in *. destruct (rlt_spec k j); [reflexivity|lra]. Qed.
Lemma kr_val_V lo hi n i : (i <= n)%nat -> (0 < n)%nat -> kr_val lo hi n i = V_val lo hi n (n - i).
Proof.
  intros Hi Hn. assert (INR n <> 0) by (apply not_0_INR; lia). unfold kr_val, V_val. destruct (Nat.eqb_spec i n) as [->|Hne].
  - rewrite Nat.sub_diag. destruct (Nat.eqb_spec 0 n); [lia|]. simpl. ring.
  - destruct (Nat.eqb_spec (n - i) n) as [E|].
    + replace i with 0%nat by lia. simpl. ring.
    + rewrite minus_INR by auto. field. auto.
Qed.
Lemma kr_val_mono lo hi n i j : lo < hi -> (i < j)%nat -> (j <= n)%nat -> kr_val lo hi n j < kr_val lo hi n i.
Proof. intros. rewrite !kr_val_V by lia. apply V_val_mono; auto; lia. Qed.
(** the solutions of the first k points, lowest frequency first, and the last one *)
Fixpoint usweep (analyze : R -> option ksol -> ksol) (lo hi : R) (n : nat) (k : nat) : kmap * option ksol :=
  match k with
  | O => ([], None)
  | S i => let a := usweep analyze lo hi n i in let s := analyze (kr_val lo hi n i) (snd a) in ((kr_val lo hi n i, s) :: fst a, Some s)
  end.
Lemma usweep_keys analyze lo hi n k : map fst (fst (usweep analyze lo hi n k)) = rev (map (kr_val lo hi n) (seq 0 k)).
Proof. induction k as [|k IH]; [reflexivity|]. rewrite seq_S, map_app, rev_app_distr. cbn [usweep fst map]. now rewrite IH. Qed.
Lemma usweep_loop analyze lo hi n : lo < hi -> forall k, (k <= S n)%nat ->
  loop k (fun i (a : kmap * option ksol) =>
     let kr := kr_val lo hi n i in let sol := analyze kr (snd a) in
     m <- kinsert kr sol (fst a) ;; Ok (m, Some sol)) ([], None) = Ok (usweep analyze lo hi n k).
Proof.
  intros H. match goal with |- forall k, _ -> loop k ?b _ = _ => set (body := b) end.
  induction k as [|k IH]; intros Hk; [reflexivity|]. cbn [loop]. rewrite IH by lia. cbn [bind]. unfold body. cbv zeta.
  rewrite kinsert_first; [reflexivity|]. apply Forall_forall. intros e He. apply (in_map fst) in He. rewrite usweep_keys in He.
  apply in_rev in He. apply in_map_iff in He. destruct He as (j & <- & Hj). apply in_seq in Hj. apply kr_val_mono; auto; lia.
Qed.
Lemma usweep_good N analyze lo hi n k : ug_oracle N analyze ->
  Forall (fun s => length (k_roots s) = N) (map snd (fst (usweep analyze lo hi n k))) /\
  map k_ref (map snd (fst (usweep analyze lo hi n k))) = rev (map (kr_val lo hi n) (seq 0 k)).
Proof.
  intros Ho. induction k as [|k (IH1 & IH2)]; [split; [constructor|reflexivity]|]. rewrite seq_S, map_app, rev_app_distr. cbn [usweep fst map].
  destruct (Ho (kr_val lo hi n k) (snd (usweep analyze lo hi n k))) as (E & G & _). split; [constructor; auto|]. rewrite IH2. simpl. now rewrite E.
Qed.
Lemma kr_nodup lo hi n : lo < hi -> NoDup (rev (map (kr_val lo hi n) (seq 0 (S n)))).
Proof.
  intros H. apply NoDup_rev. assert (X : forall k, (k <= S n)%nat -> NoDup (map (kr_val lo hi n) (seq 0 k))).
  { induction k as [|k IH]; intros Hk; [constructor|]. rewrite seq_S, map_app. apply NoDup_app_intro; [apply IH; lia|repeat constructor; auto|].
    intros v Hv [E|[]]. apply in_map_iff in Hv. destruct Hv as (j & Ej & Hj). apply in_seq in Hj. simpl in E.
    assert (Y := kr_val_mono lo hi n j k H ltac:(lia) ltac:(lia)). lra. }
  apply X. lia.
Qed.

(** ** the search *)
Section B.
  Variable analyze : R -> option ksol -> ksol.
  Variables (first : ksol) (num : nat) (g_tol : R).
  Hypothesis Ht : 0 <= g_tol.
  Lemma ug_bisect_spec n : forall b last m ok s m', bok b ->
    ug_bisect analyze first num g_tol n b last m = Ok (ok, s, m') ->
    (ok = true -> exists sol, s = Some sol /\ Rabs (kg num sol) <= g_tol) /\
    (ok = false -> (n = 0%nat /\ s = last) \/ exists sol, s = Some sol /\ g_tol < Rabs (kg num sol)) /\
    ((n = 0%nat /\ s = last) \/
     exists V sol, s = Some sol /\ sol = analyze V (Some first) /\ between (lower_V b) (upper_V b) V /\ In (V, sol) m') /\
    (forall V sol, In (V, sol) m' -> In (V, sol) m \/
        (between (lower_V b) (upper_V b) V /\ sol = analyze V (Some first))) /\
    (forall e, In e m -> In e m').
  Proof.
    induction n as [|n IH]; intros b last m ok s m' Hb; cbn [ug_bisect].
    - intros E; inversion E; subst. repeat split; auto; try discriminate.
    - destruct (Req_EM_T _ _); [discriminate|]. cbv zeta.
      destruct (kinsert _ _ m) as [m1|] eqn:E1; simpl bind; [|discriminate].
      destruct (kget _ num) as [r|] eqn:E2; simpl bind; [|discriminate].
      apply kget_some in E2. destruct E2 as (_ & Eg & _). apply kinsert_in in E1.
      assert (N := new_V_between b Hb).
      destruct (rle_spec (Rabs (k_g r)) g_tol) as [Hr|Hr].
      + intros E; inversion E; subst ok s m'. split; [|split; [|split; [|split]]].
        * intros _. eexists; split; [reflexivity|]. now rewrite Eg.
        * discriminate.
        * right. eexists _, _. split; [reflexivity|]. split; [reflexivity|]. split; [exact N|].
          rewrite E1. now left.
        * intros V sol Hin. rewrite E1 in Hin. destruct Hin as [E0|]; [inversion E0; subst; auto|auto].
        * intros e He. rewrite E1. now right.
      + intros E. apply IH in E; [|apply shrink_ok with g_tol; auto; lra].
        destruct E as (A1 & A2 & A3 & A4 & A5). split; [|split; [|split; [|split]]].
        * exact A1.
        * intros Hok. right. destruct (A2 Hok) as [(-> & ->)|]; auto.
          eexists; split; [reflexivity|]. rewrite Eg. lra.
        * right. destruct A3 as [(-> & ->)|(V & sol & E3 & E4 & E5 & E6)].
          -- eexists _, _. split; [reflexivity|]. split; [reflexivity|]. split; [exact N|].
             apply A5. rewrite E1. now left.
          -- exists V, sol. split; [auto|]. split; [auto|]. split; [|auto].
             apply (shrink_nested b (k_g r)); auto.
        * intros V sol Hin. destruct (A4 V sol Hin) as [Hin'|(Hb' & Es)].
          -- rewrite E1 in Hin'. destruct Hin' as [E0|]; [inversion E0; subst; auto|auto].
          -- right. split; auto. apply (shrink_nested b (k_g r)); auto.
        * intros e He. apply A5. rewrite E1. now right.
  Qed.
  Lemma ug_bisect_total n : (forall V, exists r, kget (analyze V (Some first)) num = Ok r) ->
    forall b last m, lower_g b < 0 < upper_g b -> lower_V b <> upper_V b ->
    (forall V, In V (map fst m) -> ~ strictly_between (lower_V b) (upper_V b) V) ->
    exists res, ug_bisect analyze first num g_tol n b last m = Ok res.
  Proof.
    intros Hr. induction n as [|n IH]; intros b last m Hg HV Hm; cbn [ug_bisect]; [eauto|].
    destruct (Req_EM_T _ _); [lra|]. cbv zeta.
    assert (Hb : bok b) by (unfold bok; lra).
    assert (S : strictly_between (lower_V b) (upper_V b) (new_V b)).
    { rewrite new_V_weight by auto. assert (W := weight_range b Hb). assert (W' := weight_pos b Hg).
      unfold strictly_between, Rmin, Rmax. repeat destruct (Rle_dec _ _); nra. }
    destruct (kinsert_ok (new_V b) (analyze (new_V b) (Some first)) m) as (m1 & E1).
    { intros Hin. apply (Hm _ Hin S). }
    rewrite E1. simpl bind. destruct (Hr (new_V b)) as (r & ->). simpl bind.
    destruct (rle_spec (Rabs (k_g r)) g_tol) as [|Hx]; [eauto|].
    apply Rnot_le_lt in Hx.
    apply kinsert_in in E1. apply IH.
    - unfold shrink. destruct (rlt_spec (k_g r) 0); simpl; [lra|]. rewrite Rabs_right in Hx by lra. lra.
    - unfold shrink, strictly_between, Rmin, Rmax in *. destruct (rlt (k_g r) 0); simpl; repeat destruct (Rle_dec _ _); lra.
    - intros V Hin. rewrite E1 in Hin. simpl in Hin.
      assert (X : V = new_V b \/ ~ strictly_between (lower_V b) (upper_V b) V) by (destruct Hin; auto).
      unfold shrink. unfold strictly_between, Rmin, Rmax in *.
      destruct (rlt (k_g r) 0); simpl; repeat destruct (Rle_dec _ _); lra.
  Qed.
End B.

(** ** the critical root *)
Definition kcore (e : R * kxo) : ksol * ksol * nat := (kx_first (snd e), kx_second (snd e), kx_num (snd e)).
Definition keyed (e : R * kxo) : Prop :=
  match kx_root (snd e) with None => fst e = kvel (kx_num (snd e)) (kx_first (snd e)) | Some r => fst e = k_V r end.
Definition kinv (xs0 xs : kxmap) : Prop := Permutation (map kcore xs) (map kcore xs0) /\ in_order xs /\ Forall keyed xs.
Lemma kx_take_spec xs x rest : kx_take xs = Some (x, rest) ->
  exists k l1 l2, xs = l1 ++ (k, x) :: l2 /\ rest = l1 ++ l2 /\ kx_root x = None.
Proof.
  revert rest. induction xs as [|[k y] xs IH]; intros rest; [discriminate|]. simpl. destruct (kx_root y) eqn:Ey.
  - destruct (kx_take xs) as [[z r]|]; [|discriminate]. intros E; inversion E; subst.
    destruct (IH _ eq_refl) as (k' & l1 & l2 & -> & -> & Hn). exists k', ((k, y) :: l1), l2. auto.
  - intros E; inversion E; subst. exists k, [], rest. auto.
Qed.
Lemma in_order_remove l1 e l2 : in_order (l1 ++ e :: l2) -> in_order (l1 ++ l2).
Proof.
  unfold in_order. induction l1 as [|a l1 IH]; simpl; intros H; apply StronglySorted_inv in H; destruct H as (H1 & H2); auto.
  constructor; auto. rewrite Forall_app in *. destruct H2 as (H2 & H3). inversion H3; auto.
Qed.
Lemma ug_refine_xs analyze x rest t it m r s' : ug_refine analyze x rest t it m = Ok (r, s') ->
  ks_xs s' = kxinsert (k_V r) (mkKx (kx_first x) (kx_second x) (kx_num x) (Some r)) rest.
Proof.
  unfold ug_refine. destruct (ug_search _ _ _ _ _) as [[[ok so] m1]|]; simpl bind; [|discriminate]. cbn [fst snd].
  destruct so; [|discriminate]. destruct (kget _ _); simpl bind; [|discriminate]. intros E; inversion E; subst. reflexivity.
Qed.
Lemma ug_refine_inv analyze xs0 l1 k x l2 t it m r s' : kinv xs0 (l1 ++ (k, x) :: l2) ->
  ug_refine analyze x (l1 ++ l2) t it m = Ok (r, s') -> kinv xs0 (ks_xs s').
Proof.
  intros (P & S & F) E. rewrite (ug_refine_xs _ _ _ _ _ _ _ _ E). split; [|split].
  - rewrite <- P. rewrite (kxinsert_perm _ _ _). simpl. rewrite !map_app. simpl. apply Permutation_middle.
  - apply kxinsert_sorted. eapply in_order_remove; eauto.
  - rewrite (kxinsert_perm _ _ _). rewrite Forall_app in F. destruct F as (F1 & F2). inversion F2; subst.
    constructor; [|apply Forall_app; auto]. unfold keyed. simpl. auto.
Qed.
Lemma ug_next_inv analyze xs0 t it s b r s' : kinv xs0 (ks_xs s) -> ug_next analyze t it s = Ok (b, r, s') -> kinv xs0 (ks_xs s').
Proof.
  intros I. unfold ug_next. destruct (kx_take (ks_xs s)) as [[x rest]|] eqn:Et.
  - destruct (ug_refine _ _ _ _ _ _) as [[r0 s1]|] eqn:E; simpl bind; [|discriminate].
    intros E'; inversion E'; subst. apply kx_take_spec in Et. destruct Et as (k & l1 & l2 & E1 & -> & _).
    rewrite E1 in I. apply (ug_refine_inv _ _ _ _ _ _ _ _ _ _ _ I E).
  - intros E; inversion E; subst; auto.
Qed.
Lemma ug_critical_inv analyze xs0 fuel : forall t it s b r s', kinv xs0 (ks_xs s) ->
  ug_critical_loop analyze fuel t it s = Ok (b, r, s') -> kinv xs0 (ks_xs s') /\
  (b = false -> r = None /\ ks_xs s' = []) /\
  (b = true -> exists k x rest r0, ks_xs s' = (k, x) :: rest /\ kx_root x = Some r0 /\ r = Some r0).
Proof.
  induction fuel as [|f IH]; intros t it s b r s' I; [discriminate|]. cbn [ug_critical_loop].
  destruct (ks_xs s) as [|[k x] rest] eqn:Ex.
  - intros E; inversion E; subst. rewrite Ex. split; auto. split; [auto|discriminate].
  - destruct (kx_root x) as [r0|] eqn:Er.
    + intros E; inversion E; subst. rewrite Ex. split; auto. split; [discriminate|]. intros _. exists k, x, rest, r0. auto.
    + destruct (ug_refine _ _ _ _ _ _) as [[r0 s1]|] eqn:E; simpl bind; [|discriminate]. intros E2.
      apply IH in E2; auto. apply (ug_refine_inv analyze xs0 [] k x rest t it _ _ _ I E).
Qed.
Lemma ug_calls_inv analyze xs0 s s' : ug_calls analyze s s' -> kinv xs0 (ks_xs s) -> kinv xs0 (ks_xs s').
Proof.
  induction 1 as [s|t it s b r s' s'' E H IH|t it s b r s' s'' E H IH]; intros I; auto.
  - apply IH. eapply ug_next_inv; eauto.
  - apply IH. unfold ug_critical in E. apply (ug_critical_inv _ _ _ _ _ _ _ _ _ I E).
Qed.
Lemma ug_identify_inv inc m xs : ug_identify inc m = Ok xs -> kinv xs xs.
Proof.
  intros E. apply ug_identify_iff in E. destruct E as (s0 & t & _ & Ho & H). split; [auto|]. split; [auto|].
  apply Forall_forall. intros (k, x) Hin. apply H in Hin. unfold keyed. simpl.
  destruct Hin as [(i & r & _ & _ & _ & _ & -> & ->)|[(i & a & b & _ & _ & _ & _ & [(_ & -> & ->)|(_ & -> & ->)])|(i & a & b & l & _ & _ & _ & _ & _ & _ & -> & ->)]]; reflexivity.
Qed.

(** ** termination *)
Definition k_open (xs : kxmap) : nat := length (filter (fun e => match kx_root (snd e) with None => true | _ => false end) xs).
Lemma k_open_insert k x xs : k_open (kxinsert k x xs) = k_open ((k, x) :: xs).
Proof. unfold k_open. apply Permutation_length. induction (kxinsert_perm k x xs); simpl; auto; repeat destruct (kx_root _); auto; try constructor; auto; try apply perm_swap. etransitivity; eauto. Qed.
Lemma kinsert_fuel V s m : kinsert V s m <> Fault OutOfFuel.
Proof.
  induction m as [|[k x] m IH]; simpl; [discriminate|]. destruct (rlt V k); [discriminate|]. destruct (rlt k V); [|discriminate].
  destruct (kinsert V s m); simpl; congruence.
Qed.
Lemma ug_bisect_fuel analyze first num t n : forall b last m, ug_bisect analyze first num t n b last m <> Fault OutOfFuel.
Proof.
  induction n as [|n IH]; intros b last m; cbn [ug_bisect]; [discriminate|]. destruct (Req_EM_T _ _); [discriminate|]. cbv zeta.
  assert (X := kinsert_fuel (new_V b) (analyze (new_V b) (Some first)) m).
  destruct (kinsert _ _ m); simpl bind; [|congruence]. unfold kget. destruct (nth_error _ num); simpl; [|discriminate].
  destruct (rle _ _); [discriminate|]. apply IH.
Qed.
Lemma ug_refine_fuel analyze x rest t it m : ug_refine analyze x rest t it m <> Fault OutOfFuel.
Proof.
  unfold ug_refine, ug_search, kget at 1 2. destruct (nth_error _ _); simpl; [|discriminate]. destruct (nth_error _ _); simpl; [|discriminate].
  match goal with |- context [ug_bisect ?a ?b ?c ?d ?e ?f ?g ?h] => assert (X := ug_bisect_fuel a b c d e f g h); destruct (ug_bisect a b c d e f g h) as [[[ok s] m']|] end; simpl; [|congruence].
  destruct s; [|discriminate]. unfold kget. destruct (nth_error _ _); simpl; discriminate.
Qed.
Lemma ug_critical_terminates analyze t it fuel : forall s, (k_open (ks_xs s) < fuel)%nat -> ug_critical_loop analyze fuel t it s <> Fault OutOfFuel.
Proof.
  induction fuel as [|f IH]; intros s Hf; [lia|]. cbn [ug_critical_loop]. destruct (ks_xs s) as [|[k x] rest]; [discriminate|].
  destruct (kx_root x) eqn:Er; [discriminate|]. assert (X := ug_refine_fuel analyze x rest t it (ks_sols s)).
  destruct (ug_refine _ _ _ _ _ _) as [[r s1]|] eqn:E; simpl bind; [|congruence]. apply IH. simpl.
  rewrite (ug_refine_xs _ _ _ _ _ _ _ _ E), k_open_insert. unfold k_open in *. simpl in *. rewrite Er in Hf. simpl in Hf. lia.
Qed.
Lemma k_open_le xs : (k_open xs <= length xs)%nat.
Proof. unfold k_open. induction xs as [|e xs IH]; simpl; auto. destruct (kx_root (snd e)); simpl; lia. Qed.
