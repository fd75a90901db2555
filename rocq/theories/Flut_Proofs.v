From Coq Require Import Reals List Arith Lia Lra Bool Permutation Sorted.
From Verif Require Import Base BaseLemmas Flut_Model Flut_Spec.
Import ListNotations.
Open Scope R_scope.

Lemma rlt_spec a b : reflect (a < b) (rlt a b).
Proof. unfold rlt; destruct (Rlt_dec a b); now constructor. Qed.
Lemma rle_spec a b : reflect (a <= b) (rle a b).
Proof. unfold rle; destruct (Rle_dec a b); now constructor. Qed.

Lemma get_root_g s i r : get_root s i = Ok r -> g i s = r_re r /\ w i s = r_im r /\ vel i s = r_V r.
Proof. unfold get_root, g, w, vel. destruct (nth_error _ _); intros E; inversion E; auto. Qed.

(** ** the multimap *)
Lemma xinsert_perm k x m : Permutation (xinsert k x m) ((k, x) :: m).
Proof.
  induction m as [|[j y] m IH]; simpl; auto. destruct (rlt k j); auto.
  rewrite IH. apply perm_swap.
Qed.
Definition keys_sorted (m : xmap) : Prop := StronglySorted (fun a b : R * xover => fst a <= fst b) m.
Lemma xinsert_sorted k x m : keys_sorted m -> keys_sorted (xinsert k x m).
Proof.
  unfold keys_sorted. induction m as [|[j y] m IH]; simpl; intros H.
  - constructor; constructor.
  - apply StronglySorted_inv in H. destruct H as (H1 & H2).
    destruct (rlt_spec k j).
    + constructor; [constructor; auto|]. constructor; simpl; [lra|].
      eapply Forall_impl; [|exact H2]. simpl; intros; lra.
    + constructor; auto. rewrite (xinsert_perm k x m). constructor; auto. simpl; lra.
Qed.

(** ** identification *)
Definition pair_exp (i : nat) (a b : fsol) : xmap :=
  if rlt tol (Rabs (ref_val a)) || rlt tol (Rabs (ref_val b)) then
    if rle (g i a) 0 && rlt 0 (g i b) then [(vel i a, mkX a b i None)]
    else if rlt 0 (g i a) && rle (g i b) 0 then [(vel i b, mkX b a i None)] else []
  else [].
Fixpoint pairs_exp (i : nat) (l : list fsol) : xmap :=
  match l with
  | a :: ((b :: _) as t) => pair_exp i a b ++ pairs_exp i t
  | _ => []
  end.
Definition init_exp (i : nat) (l : list fsol) : xmap :=
  match l with
  | [] => []
  | s0 :: t => if (rlt tol (Rabs (ref_val s0)) || match t with [] => false | s1 :: _ => rlt tol (Rabs (ref_val s1)) end)
                  && rlt 0 (g i s0) then [(vel i s0, mkX s0 s0 i None)] else []
  end.
Definition mode_exp (neg : bool) (i : nat) (l : list fsol) : xmap :=
  if neg then [] else pairs_exp i l ++ init_exp i l.

Lemma process_perm neg i a b xs xs' : process neg i a b xs = Ok xs' ->
  Permutation xs' ((if neg then [] else pair_exp i a b) ++ xs) /\ (keys_sorted xs -> keys_sorted xs').
Proof.
  unfold process, pair_exp. destruct neg; rewrite ?andb_false_r, ?andb_true_r.
  - intros E; inversion E; auto.
  - destruct (_ || _); [|intros E; inversion E; auto].
    destruct (get_root a i) as [rl|] eqn:E1; simpl; [|discriminate].
    destruct (get_root b i) as [ru|] eqn:E2; simpl; [|discriminate].
    apply get_root_g in E1, E2. destruct E1 as (-> & _ & ->), E2 as (-> & _ & ->).
    intros E; inversion E. destruct (_ && _); [split; [apply xinsert_perm|apply xinsert_sorted]|].
    destruct (_ && _); [split; [apply xinsert_perm|apply xinsert_sorted]|auto].
Qed.
Lemma process_pairs_perm neg i l : forall xs xs', process_pairs neg i l xs = Ok xs' ->
  Permutation xs' ((if neg then [] else pairs_exp i l) ++ xs) /\ (keys_sorted xs -> keys_sorted xs').
Proof.
  induction l as [|a l IH]; intros xs xs'.
  - simpl. intros E; inversion E. destruct neg; auto.
  - destruct l as [|b l]; [simpl; intros E; inversion E; destruct neg; auto|].
    cbn [process_pairs pairs_exp]. destruct (process neg i a b xs) as [x1|] eqn:E1; simpl bind; [|discriminate].
    intros E. apply process_perm in E1. apply IH in E. destruct E1 as (P1 & S1), E as (P2 & S2).
    split; [|auto]. rewrite P2, P1. destruct neg; simpl; auto. rewrite !app_assoc.
    apply Permutation_app_tail. apply Permutation_app_comm.
Qed.
Lemma process_initial_perm neg i l xs xs' : process_initial neg i l xs = Ok xs' ->
  Permutation xs' ((if neg then [] else init_exp i l) ++ xs) /\ (keys_sorted xs -> keys_sorted xs').
Proof.
  unfold process_initial, init_exp. destruct l as [|s0 t]; [discriminate|].
  destruct (rlt tol (Rabs (ref_val s0))).
  - simpl bind. destruct (get_root s0 i) as [r|] eqn:E1; simpl; [|discriminate].
    apply get_root_g in E1. destruct E1 as (-> & _ & ->). intros E; inversion E.
    destruct neg; simpl; auto. destruct (rlt 0 (r_re r)); auto. split; [apply xinsert_perm|apply xinsert_sorted].
  - destruct t as [|s1 t]; [discriminate|]. simpl bind. destruct (get_root s0 i) as [r|] eqn:E1; simpl; [|discriminate].
    apply get_root_g in E1. destruct E1 as (-> & _ & ->). intros E; inversion E.
    destruct (rlt tol (Rabs (ref_val s1))), neg; simpl; auto.
    destruct (rlt 0 (r_re r)); auto. split; [apply xinsert_perm|apply xinsert_sorted].
Qed.

Lemma max_vals_spec i l : forall mg mw m, max_vals i l mg mw = Ok m ->
  (fst m < tol <-> mg < tol /\ Forall (fun s => Rabs (g i s) < tol) l) /\
  (snd m < 0 <-> mw < 0 /\ Forall (fun s => w i s < 0) l).
Proof.
  induction l as [|s l IH]; intros mg mw m; simpl.
  - intros E; inversion E; simpl. split; split; auto; tauto.
  - destruct (get_root s i) as [r|] eqn:Er; simpl; [|discriminate]. apply get_root_g in Er.
    destruct Er as (Eg & Ew & _). intros E. apply IH in E. destruct E as (H1 & H2). rewrite H1, H2.
    rewrite !Forall_cons_iff, Eg, Ew.
    destruct (rlt_spec mg (Rabs (r_re r))), (rlt_spec mw (r_im r)); split; split; intros; repeat split; try tauto; try lra.
Qed.
Lemma big_neg : - big < 0.
Proof.
  unfold big. assert (0 < 10 ^ 100)%Z by reflexivity. apply IZR_lt in H. lra.
Qed.
Lemma neglect_spec sols i b : neglect sols i = Ok b -> (b = true <-> ~ retained sols i).
Proof.
  unfold neglect. destruct (max_vals i sols 0 (- big)) as [m|] eqn:E; simpl; [|discriminate].
  apply max_vals_spec in E. destruct E as (H1 & H2). intros E; inversion E as [Eb]. clear E.
  assert (T0 : 0 < tol) by (unfold tol; lra). assert (B0 := big_neg).
  assert (K1 : fst m < tol <-> ~ exists s, In s sols /\ tol <= Rabs (g i s)).
  { rewrite H1. split.
    - intros (_ & F) (s & Hs & Hg). rewrite Forall_forall in F. specialize (F s Hs). lra.
    - intros N. split; auto. apply Forall_forall. intros s Hs. apply Rnot_le_lt. intros Hle. apply N. eauto. }
  assert (K2 : snd m < 0 <-> ~ exists s, In s sols /\ 0 <= w i s).
  { rewrite H2. split.
    - intros (_ & F) (s & Hs & Hg). rewrite Forall_forall in F. specialize (F s Hs). lra.
    - intros N. split; auto. apply Forall_forall. intros s Hs. apply Rnot_le_lt. intros Hle. apply N. eauto. }
  unfold retained. destruct (rlt_spec (fst m) tol), (rlt_spec (snd m) 0); simpl; split; intros H; try tauto; try discriminate.
Qed.

Lemma negs_loop sols : forall n negs, loop n (fun i acc => b <- neglect sols i ;; Ok (acc ++ [b])) [] = Ok negs ->
  length negs = n /\ forall i, (i < n)%nat -> neglect sols i = Ok (nth i negs false).
Proof.
  induction n as [|n IH]; intros negs; simpl.
  - intros E; inversion E; split; auto; lia.
  - destruct (loop n _ []) as [l|] eqn:E1; simpl; [|discriminate]. destruct (IH _ eq_refl) as (L & H).
    destruct (neglect sols n) as [b|] eqn:E2; simpl; [|discriminate]. intros E; inversion E.
    split; [rewrite app_length; simpl; lia|]. intros i Hi. destruct (Nat.eq_dec i n) as [->|].
    + rewrite app_nth2 by lia. replace (n - length l)%nat with 0%nat by lia. exact E2.
    + rewrite app_nth1 by lia. apply H. lia.
Qed.

Lemma identify_perm m xs : identify_crossover_points m = Ok xs ->
  exists s0 t negs, map snd m = s0 :: t /\ sroots s0 <> [] /\
    (forall i, (i < length (sroots s0))%nat -> neglect (map snd m) i = Ok (nth i negs false)) /\
    keys_sorted xs /\
    Permutation xs (flat_map (fun i => mode_exp (nth i negs false) i (map snd m)) (seq 0 (length (sroots s0)))).
Proof.
  unfold identify_crossover_points. destruct (map snd m) as [|s0 t] eqn:Em; [discriminate|]. rewrite <- Em.
  unfold assert_. destruct (Nat.eqb_spec (length (sroots s0)) 0) as [|Hn]; simpl; [discriminate|].
  destruct (loop _ _ []) as [negs|] eqn:En; simpl bind; [|discriminate].
  apply negs_loop in En. destruct En as (Ln & Hneg). intros E.
  exists s0, t, negs. split; [auto|]. split; [destruct (sroots s0); simpl in *; congruence|]. split; [auto|].
  clear Ln Hneg Em Hn. revert xs E. generalize (length (sroots s0)) as n. intros n.
  induction n as [|n IH]; intros xs E.
  - simpl in E. inversion E. split; [constructor|constructor].
  - cbn [loop] in E. match type of E with context [loop n ?b []] => destruct (loop n b []) as [x1|] eqn:E1 end; simpl bind in E; [|discriminate].
    destruct (process_pairs _ _ _ _) as [x2|] eqn:E2; simpl bind in E; [|discriminate].
    destruct (IH _ eq_refl) as (S1 & P1). apply process_pairs_perm in E2. apply process_initial_perm in E.
    destruct E2 as (P2 & S2), E as (P3 & S3). split; [auto|].
    rewrite P3, P2, P1. rewrite seq_S, flat_map_app. simpl. rewrite app_nil_r. unfold mode_exp at 3.
    destruct (nth n negs false); simpl; [now rewrite app_nil_r|].
    rewrite app_assoc. rewrite Permutation_app_comm. apply Permutation_app_head. apply Permutation_app_comm.
Qed.

Lemma in_pairs_exp i l k x : In (k, x) (pairs_exp i l) <->
  exists a b, consecutive l a b /\ fast a b /\ crossing i a b k x.
Proof.
  induction l as [|a l IH].
  - simpl. split; [tauto|]. intros (a & b & (l1 & l2 & E) & _). destruct l1; discriminate.
  - destruct l as [|b l].
    + simpl. split; [tauto|]. intros (a' & b' & (l1 & l2 & E) & _). destruct l1 as [|? [|]]; discriminate.
    + cbn [pairs_exp]. rewrite in_app_iff, IH.
      assert (P : In (k, x) (pair_exp i a b) <-> fast a b /\ crossing i a b k x).
      { unfold pair_exp, fast, crossing.
        destruct (rlt_spec tol (Rabs (ref_val a))), (rlt_spec tol (Rabs (ref_val b))); simpl;
        destruct (rle_spec (g i a) 0), (rlt_spec 0 (g i b)), (rlt_spec 0 (g i a)), (rle_spec (g i b) 0); simpl; try lra;
        (split; [intros H; repeat (destruct H as [H|H]; try (inversion H; subst)); try tauto; split; auto; try tauto
                |intros (HF & [(Hg & -> & ->)|(Hg & -> & ->)]); try (left; reflexivity); try lra; tauto]).
      }
      rewrite P. split.
      * intros [(F & C)|(a' & b' & (l1 & l2 & E) & R)].
        -- exists a, b. split; [exists [], l; reflexivity|auto].
        -- exists a', b'. split; [exists (a :: l1), l2; simpl; now rewrite E|auto].
      * intros (a' & b' & (l1 & l2 & E) & R). destruct l1 as [|c l1].
        -- simpl in E. inversion E; subst. left; auto.
        -- simpl in E. inversion E; subst. right. exists a', b'. split; [exists l1, l2; auto|auto].
Qed.

Lemma NoDup_app_intro {A} (l1 l2 : list A) : NoDup l1 -> NoDup l2 -> (forall a, In a l1 -> ~ In a l2) -> NoDup (l1 ++ l2).
Proof.
  induction l1 as [|a l1 IH]; simpl; auto. intros H1 H2 H. inversion H1; subst. constructor.
  - rewrite in_app_iff. intros [X|X]; [auto|]. apply (H a); auto.
  - apply IH; auto.
Qed.
Lemma NoDup_flat_map {A B} (f : A -> list B) (l : list A) :
  NoDup l -> (forall a, In a l -> NoDup (f a)) -> (forall a a' b, In a l -> In a' l -> In b (f a) -> In b (f a') -> a = a') ->
  NoDup (flat_map f l).
Proof.
  induction l as [|a l IH]; simpl; [constructor|]. intros H1 H2 H3. inversion H1; subst.
  apply NoDup_app_intro; auto.
  - apply IH; eauto.
  - intros b Hb Hin. apply in_flat_map in Hin. destruct Hin as (a' & Ha' & Hb').
    assert (a = a') by (apply (H3 a a' b); auto). subst. contradiction.
Qed.
Lemma consecutive_in l a b : consecutive l a b -> In a l /\ In b l.
Proof. intros (l1 & l2 & ->). split; apply in_or_app; right; simpl; auto. Qed.
Lemma nodup_pairs i l : NoDup (map ref_val l) -> NoDup (map snd (pairs_exp i l)).
Proof.
  induction l as [|a l IH]; [constructor|]. destruct l as [|b l]; [constructor|].
  cbn [pairs_exp]. intros H. inversion H as [|? ? Ha Hb]; subst. rewrite map_app. apply NoDup_app_intro; auto.
  - unfold pair_exp. destruct (_ || _); [|constructor]. destruct (_ && _); [repeat constructor; auto|].
    destruct (_ && _); repeat constructor; auto.
  - intros x H1 H2.
    assert (Hx : x_first x = a \/ x_second x = a).
    { unfold pair_exp in H1. destruct (_ || _); [|destruct H1]. destruct (_ && _).
      - simpl in H1. destruct H1 as [<-|[]]; simpl; auto.
      - destruct (_ && _); simpl in H1; [destruct H1 as [<-|[]]; simpl; auto|destruct H1]. }
    apply in_map_iff in H2. destruct H2 as ((k & x') & E & H2). simpl in E. subst x'.
    apply (in_pairs_exp i (b :: l)) in H2. destruct H2 as (a' & b' & Hc & _ & C). apply consecutive_in in Hc.
    assert (In a (b :: l)).
    { destruct C as [(_ & _ & ->)|(_ & _ & ->)]; simpl in Hx; destruct Hx; subst; tauto. }
    apply Ha. exact (in_map ref_val (b :: l) a H0).
Qed.
Lemma consecutive_neq l a b : NoDup (map ref_val l) -> consecutive l a b -> a <> b.
Proof.
  intros H (l1 & l2 & ->) ->. rewrite map_app in H. simpl in H. apply NoDup_remove_2 in H.
  apply H. apply in_or_app. right. now left.
Qed.

(** ** the search *)
Definition bok (b : bracket) : Prop := lower_g b <= 0 < upper_g b.
Definition between (a b v : R) : Prop := Rmin a b <= v <= Rmax a b.
Lemma mul_frac (d t : R) : 0 <= t <= 1 -> between 0 d (d * t).
Proof.
  intros H. unfold between. destruct (Rle_dec 0 d).
  - rewrite Rmin_left, Rmax_right by lra. split; nra.
  - rewrite Rmin_right, Rmax_left by lra. split; nra.
Qed.
Lemma between_trans a b c d v : between a b c -> between a b d -> between c d v -> between a b v.
Proof. unfold between, Rmin, Rmax. repeat destruct (Rle_dec _ _); lra. Qed.
Lemma between_l a b : between a b a.
Proof. unfold between, Rmin, Rmax. repeat destruct (Rle_dec _ _); lra. Qed.
Lemma between_r a b : between a b b.
Proof. unfold between, Rmin, Rmax. repeat destruct (Rle_dec _ _); lra. Qed.

Definition weight (b : bracket) : R := - lower_g b / (upper_g b - lower_g b).
Lemma new_V_weight b : bok b -> new_V b = lower_V b + (upper_V b - lower_V b) * weight b.
Proof. intros (H1 & H2). unfold new_V, weight. field. lra. Qed.
Lemma weight_range b : bok b -> 0 <= weight b < 1.
Proof.
  intros (H1 & H2). unfold weight. split.
  - apply Rmult_le_pos; [lra|]. left. apply Rinv_0_lt_compat. lra.
  - apply (Rmult_lt_reg_r (upper_g b - lower_g b)); [lra|]. field_simplify; lra.
Qed.
Lemma weight_pos b : lower_g b < 0 < upper_g b -> 0 < weight b.
Proof. intros (H1 & H2). unfold weight. apply Rmult_lt_0_compat; [lra|]. apply Rinv_0_lt_compat. lra. Qed.
Lemma new_V_between b : bok b -> between (lower_V b) (upper_V b) (new_V b).
Proof.
  intros H. rewrite new_V_weight by auto. assert (W := weight_range b H).
  assert (X := mul_frac (upper_V b - lower_V b) (weight b) ltac:(lra)).
  unfold between, Rmin, Rmax in *. repeat destruct (Rle_dec _ _); lra.
Qed.
Lemma shrink_ok b V gg t : 0 <= t -> bok b -> t < Rabs gg -> bok (shrink b V gg).
Proof.
  intros Ht (H1 & H2) Hg. unfold shrink, bok. destruct (rlt_spec gg 0); simpl; [lra|].
  rewrite Rabs_right in Hg by lra. lra.
Qed.
Lemma shrink_nested b gg v : bok b ->
  between (lower_V (shrink b (new_V b) gg)) (upper_V (shrink b (new_V b) gg)) v -> between (lower_V b) (upper_V b) v.
Proof.
  intros H. assert (N := new_V_between b H). unfold shrink. destruct (rlt gg 0); simpl; apply between_trans; auto;
    apply between_l || apply between_r.
Qed.

Lemma sinsert_in V s m m' : sinsert V s m = Ok m' -> Permutation m' ((V, s) :: m).
Proof.
  revert m'. induction m as [|[k x] m IH]; simpl; intros m'.
  - intros E; inversion E; auto.
  - destruct (rlt V k); [intros E; inversion E; auto|]. destruct (rlt k V); [|discriminate].
    destruct (sinsert V s m) as [t|] eqn:E1; simpl; [|discriminate]. intros E; inversion E.
    rewrite (IH t eq_refl). apply perm_swap.
Qed.
Lemma sinsert_ok V s m : ~ In V (map fst m) -> exists m', sinsert V s m = Ok m'.
Proof.
  induction m as [|[k x] m IH]; simpl; intros H; [eauto|].
  destruct (rlt_spec V k); [eauto|]. destruct (rlt_spec k V); [|exfalso; apply H; left; lra].
  destruct IH as (m' & ->); [tauto|]. simpl. eauto.
Qed.

Section B.
  Variable analyze : R -> option fsol -> fsol.
  Variables (first : fsol) (num : nat) (g_tol : R).
  Hypothesis Ht : 0 <= g_tol.

  Lemma bisect_spec n : forall b last m ok s m', bok b ->
    bisect analyze first num g_tol n b last m = Ok (ok, s, m') ->
    (ok = true -> exists sol, s = Some sol /\ Rabs (g num sol) <= g_tol) /\
    (ok = false -> (n = 0%nat /\ s = last) \/ exists sol, s = Some sol /\ g_tol < Rabs (g num sol)) /\
    ((n = 0%nat /\ s = last) \/
     exists V sol, s = Some sol /\ sol = analyze V (Some first) /\ between (lower_V b) (upper_V b) V /\ In (V, sol) m') /\
    (forall V sol, In (V, sol) m' -> In (V, sol) m \/
        (between (lower_V b) (upper_V b) V /\ sol = analyze V (Some first))) /\
    (forall e, In e m -> In e m').
  Proof.
    induction n as [|n IH]; intros b last m ok s m' Hb; cbn [bisect].
    - intros E; inversion E; subst. repeat split; auto; try discriminate.
    - destruct (Req_EM_T _ _); [discriminate|]. cbv zeta.
      destruct (sinsert _ _ m) as [m1|] eqn:E1; simpl bind; [|discriminate].
      destruct (get_root _ num) as [r|] eqn:E2; simpl bind; [|discriminate].
      apply get_root_g in E2. destruct E2 as (Eg & _ & _). apply sinsert_in in E1.
      assert (N := new_V_between b Hb).
      destruct (rle_spec (Rabs (r_re r)) g_tol) as [Hr|Hr].
      + intros E; inversion E; subst ok s m'. split; [|split; [|split; [|split]]].
        * intros _. eexists; split; [reflexivity|]. now rewrite Eg.
        * discriminate.
        * right. eexists _, _. split; [reflexivity|]. split; [reflexivity|]. split; [exact N|].
          rewrite E1. now left.
        * intros V sol Hin. rewrite E1 in Hin. destruct Hin as [E0|]; [inversion E0; subst; auto|auto].
        * intros e He. rewrite E1. now right.
      + intros E. apply IH in E; [|apply shrink_ok with g_tol; auto; lra].
        destruct E as (A1 & A2 & A3 & A4 & A5). split; [|split; [|split; [|split]]].
        * exact A1.
        * intros Hok. right. destruct (A2 Hok) as [(-> & ->)|]; auto.
          eexists; split; [reflexivity|]. rewrite Eg. lra.
        * right. destruct A3 as [(-> & ->)|(V & sol & E3 & E4 & E5 & E6)].
          -- eexists _, _. split; [reflexivity|]. split; [reflexivity|]. split; [exact N|].
             apply A5. rewrite E1. now left.
          -- exists V, sol. split; [auto|]. split; [auto|]. split; [|auto].
             apply (shrink_nested b (r_re r)); auto.
        * intros V sol Hin. destruct (A4 V sol Hin) as [Hin'|(Hb' & Es)].
          -- rewrite E1 in Hin'. destruct Hin' as [E0|]; [inversion E0; subst; auto|auto].
          -- right. split; auto. apply (shrink_nested b (r_re r)); auto.
        * intros e He. apply A5. rewrite E1. now right.
  Qed.

  (** no fault when the bracket is strict and no stored velocity lies inside it *)
  Definition strictly_between (a b v : R) : Prop := Rmin a b < v < Rmax a b.
  Lemma bisect_total n : (forall V, exists r, get_root (analyze V (Some first)) num = Ok r) ->
    forall b last m, lower_g b < 0 < upper_g b -> lower_V b <> upper_V b ->
    (forall V, In V (map fst m) -> ~ strictly_between (lower_V b) (upper_V b) V) ->
    exists res, bisect analyze first num g_tol n b last m = Ok res.
  Proof.
    intros Hr. induction n as [|n IH]; intros b last m Hg HV Hm; cbn [bisect]; [eauto|].
    destruct (Req_EM_T _ _); [lra|]. cbv zeta.
    assert (Hb : bok b) by (unfold bok; lra).
    assert (S : strictly_between (lower_V b) (upper_V b) (new_V b)).
    { rewrite new_V_weight by auto. assert (W := weight_range b Hb). assert (W' := weight_pos b Hg).
      unfold strictly_between, Rmin, Rmax. repeat destruct (Rle_dec _ _); nra. }
    destruct (sinsert_ok (new_V b) (analyze (new_V b) (Some first)) m) as (m1 & E1).
    { intros Hin. apply (Hm _ Hin S). }
    rewrite E1. simpl bind. destruct (Hr (new_V b)) as (r & ->). simpl bind.
    destruct (rle_spec (Rabs (r_re r)) g_tol) as [|Hx]; [eauto|].
    apply Rnot_le_lt in Hx.
    apply sinsert_in in E1. apply IH.
    - unfold shrink. destruct (rlt_spec (r_re r) 0); simpl; [lra|]. rewrite Rabs_right in Hx by lra. lra.
    - unfold shrink, strictly_between, Rmin, Rmax in *. destruct (rlt (r_re r) 0); simpl; repeat destruct (Rle_dec _ _); lra.
    - intros V Hin. rewrite E1 in Hin. simpl in Hin.
      assert (X : V = new_V b \/ ~ strictly_between (lower_V b) (upper_V b) V) by (destruct Hin; auto).
      unfold shrink. unfold strictly_between, Rmin, Rmax in *.
      destruct (rlt (r_re r) 0); simpl; repeat destruct (Rle_dec _ _); lra.
  Qed.
End B.

(** ** critical root *)
Definition core (e : R * xover) : fsol * fsol * nat := (x_first (snd e), x_second (snd e), x_num (snd e)).
Definition Rng (x : xover) (v : R) : Prop := between (ref_val (x_first x)) (ref_val (x_second x)) v.
Definition entry_ok (e : R * xover) : Prop :=
  match x_root (snd e) with
  | None => fst e = ref_val (x_first (snd e))
  | Some r => fst e = r_V r /\ Rng (snd e) (fst e)
  end.
Definition sign_ok (c : fsol * fsol * nat) : Prop := g (snd c) (fst (fst c)) <= 0 < g (snd c) (snd (fst c)).

Section C.
  Variable analyze : R -> option fsol -> fsol.
  Variable n : nat.
  Hypothesis Hor : good_oracle n analyze.
  Variable xs0 : xmap.
  Hypothesis Hsign : Forall sign_ok (map core xs0).

  Definition inv (xs : xmap) : Prop :=
    Permutation (map core xs) (map core xs0) /\ keys_sorted xs /\ Forall entry_ok xs.

  Lemma good_root sol i r : good_sol n sol -> get_root sol i = Ok r -> r_V r = ref_val sol.
  Proof.
    intros (_ & H) E. unfold get_root in E. destruct (nth_error (sroots sol) i) eqn:En; inversion E; subst.
    rewrite Forall_forall in H. apply H. eapply nth_error_In; eauto.
  Qed.

  Lemma refine_spec x rest t it m r s' : 0 <= t -> sign_ok (x_first x, x_second x, x_num x) ->
    refine analyze x rest t it m = Ok (r, s') ->
    Rng x (r_V r) /\ f_xs s' = xinsert (r_V r) (mkX (x_first x) (x_second x) (x_num x) (Some r)) rest /\
    (exists ok sol m', bisection_search analyze x t it m = Ok (ok, Some sol, m') /\ get_root sol (x_num x) = Ok r /\ ref_val sol = r_V r).
  Proof.
    intros Ht Hs. unfold refine. destruct (bisection_search analyze x t it m) as [[[ok so] m1]|] eqn:Eb; simpl bind; [|discriminate].
    cbn [fst snd]. destruct so as [sol|]; [|discriminate]. destruct (get_root sol (x_num x)) as [r1|] eqn:Er; simpl bind; [|discriminate].
    intros E; inversion E; subst r1 s'. clear E.
    unfold bisection_search in Eb.
    destruct (get_root (x_first x) (x_num x)) as [rl|] eqn:E1; simpl bind in Eb; [|discriminate].
    destruct (get_root (x_second x) (x_num x)) as [ru|] eqn:E2; simpl bind in Eb; [|discriminate].
    apply get_root_g in E1, E2. destruct E1 as (E1 & _), E2 as (E2 & _).
    apply bisect_spec in Eb; auto; [|unfold bok, sign_ok in *; simpl in *; rewrite <- E1, <- E2; exact Hs].
    destruct Eb as (_ & _ & [(_ & X)|(V & sol' & X & Es & Hb & _)] & _); [discriminate|].
    injection X as X. rewrite <- X in Es. clear X sol'.
    simpl in Hb. destruct (Hor V (Some (x_first x))) as (HV & Hg). rewrite <- Es in HV, Hg.
    assert (EV : r_V r = ref_val sol) by (eapply good_root; eauto).
    split; [unfold Rng; rewrite EV, HV; exact Hb|]. split; [reflexivity|].
    exists ok, sol, m1. auto.
  Qed.

  Lemma take_open_spec xs x rest : take_open xs = Some (x, rest) ->
    exists k l1 l2, xs = l1 ++ (k, x) :: l2 /\ rest = l1 ++ l2 /\ x_root x = None.
  Proof.
    revert rest. induction xs as [|[k y] xs IH]; intros rest; [discriminate|]. simpl.
    destruct (x_root y) eqn:Ey.
    - destruct (take_open xs) as [[z r]|]; [|discriminate]. intros E; inversion E; subst.
      destruct (IH _ eq_refl) as (k' & l1 & l2 & -> & -> & Hn). exists k', ((k, y) :: l1), l2. auto.
    - intros E; inversion E; subst. exists k, [], rest. auto.
  Qed.

  Lemma sorted_remove l1 e l2 : keys_sorted (l1 ++ e :: l2) -> keys_sorted (l1 ++ l2).
  Proof.
    unfold keys_sorted. induction l1 as [|a l1 IH]; simpl; intros H; apply StronglySorted_inv in H; destruct H as (H1 & H2); auto.
    constructor; auto. rewrite Forall_app in *. destruct H2 as (H2 & H3). inversion H3; auto.
  Qed.
  Lemma refine_inv l1 k x l2 t it m r s' : 0 <= t -> inv (l1 ++ (k, x) :: l2) ->
    refine analyze x (l1 ++ l2) t it m = Ok (r, s') -> inv (f_xs s') /\ Rng x (r_V r).
  Proof.
    intros Ht (P & S & F) E.
    assert (Hs : sign_ok (x_first x, x_second x, x_num x)).
    { rewrite Forall_forall in Hsign. apply Hsign. apply (Permutation_in _ P). rewrite map_app. simpl.
      apply in_or_app. right. now left. }
    destruct (refine_spec _ _ _ _ _ _ _ Ht Hs E) as (HR & Ex & _). split; [|exact HR].
    rewrite Ex. split; [|split].
    - rewrite <- P. rewrite (xinsert_perm _ _ _). simpl. rewrite !map_app. simpl. apply Permutation_middle.
    - apply xinsert_sorted. eapply sorted_remove; eauto.
    - rewrite (xinsert_perm _ _ _). rewrite Forall_app in F. destruct F as (F1 & F2). inversion F2; subst.
      constructor; [|apply Forall_app; auto]. unfold entry_ok. simpl. auto.
  Qed.

  Lemma next_inv t it s b r s' : 0 <= t -> inv (f_xs s) -> find_next_root analyze t it s = Ok (b, r, s') -> inv (f_xs s').
  Proof.
    intros Ht I. unfold find_next_root. destruct (take_open (f_xs s)) as [[x rest]|] eqn:Et.
    - destruct (refine _ _ _ _ _ _) as [[r0 s1]|] eqn:E; simpl bind; [|discriminate].
      intros E'; inversion E'; subst. apply take_open_spec in Et. destruct Et as (k & l1 & l2 & E1 & -> & _).
      rewrite E1 in I. apply (refine_inv _ _ _ _ _ _ _ _ _ Ht I E).
    - intros E; inversion E; subst; auto.
  Qed.
  Lemma critical_inv fuel : forall t it s b r s', 0 <= t -> inv (f_xs s) ->
    find_critical_loop analyze fuel t it s = Ok (b, r, s') -> inv (f_xs s') /\
    (b = true -> exists k x rest r0, f_xs s' = (k, x) :: rest /\ x_root x = Some r0 /\ r = Some r0).
  Proof.
    induction fuel as [|f IH]; intros t it s b r s' Ht I; [discriminate|]. cbn [find_critical_loop].
    destruct (f_xs s) as [|[k x] rest] eqn:Ex.
    - intros E; inversion E; subst. rewrite Ex. split; auto. discriminate.
    - destruct (x_root x) as [r0|] eqn:Er.
      + intros E; inversion E; subst. rewrite Ex. split; auto. intros _. exists k, x, rest, r0. auto.
      + destruct (refine _ _ _ _ _ _) as [[r0 s1]|] eqn:E; simpl bind; [|discriminate]. intros E2.
        apply IH in E2; auto. apply (refine_inv [] k x rest t it _ _ _ Ht I E).
  Qed.
End C.
