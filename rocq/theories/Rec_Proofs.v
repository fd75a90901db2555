From Coq Require Import Reals Lra.
From Coquelicot Require Import Coquelicot.
From Coq Require Import List Arith Bool Lia.
From Verif Require Import Base BaseLemmas Sens_Spec Sens_Proofs Sens_Proofs2 Heat_Proofs Solid_Model Solid_Spec Solid_Proofs2 Dof6_Model Beam_Model Beam_Spec
  Dof6_Proofs Beam_Proofs Beam_Proofs2 Plate_Model Plate_Spec Plate_Proofs Rec_Model Rec_Spec.
Import ListNotations.
Open Scope R_scope.

(** *** The loops *)
Section Loops.
Variable added : nat.
Section Add.
Variable E : qpt -> nat -> pdata.
Variable body : nat -> qpt -> nat -> list pdata -> outcome (list pdata).
Hypothesis Hb : forall qp q k st, body qp q k st =
  add_data qp (d_stress (E q k)) (d_strain (E q k)) (d_w (E q k)) st.
Hypothesis He : forall q k, d_dX (E q k) = None /\ d_sens (E q k) = [].
Lemma add_one qp q k st : qp = length st -> body qp q k st = Ok (st ++ [E q k]).
Proof.
  intros ->. rewrite Hb. destruct (He q k) as [H1 H2]. assert (EE : mkD (d_stress (E q k)) (d_strain (E q k)) (d_w (E q k)) None [] = E q k).
  { destruct (E q k); cbn in *. now subst. }
  unfold add_data. destruct st as [|d st]; [now rewrite EE|]. now rewrite Nat.eqb_refl, EE.
Qed.
Lemma add_section qp q todo : forall k st, length st = (qp + k)%nat ->
  section_loop (fun qp k => body qp q k) qp k todo st = Ok (st ++ map (E q) (seq k todo)).
Proof.
  induction todo as [|m IH]; intros k st H; cbn [section_loop seq map]; [now rewrite app_nil_r|].
  rewrite add_one by (symmetry; exact H). cbn [bind].
  rewrite IH by (rewrite app_length; cbn; lia). now rewrite <- app_assoc.
Qed.
Lemma add_loop qs : forall i st, length st = (i * added)%nat ->
  point_loop added body i qs st = Ok (st ++ flat_map (fun q => map (E q) (seq 0 added)) qs).
Proof.
  induction qs as [|q qs IH]; intros i st H; cbn [point_loop flat_map]; [now rewrite app_nil_r|].
  rewrite add_section by lia. cbn [bind]. rewrite IH.
  - now rewrite <- app_assoc.
  - rewrite app_length, map_length, seq_length. cbn. lia.
Qed.
Lemma added_length qs : length (flat_map (fun q => map (E q) (seq 0 added)) qs) = (length qs * added)%nat.
Proof. induction qs as [|q qs IH]; [reflexivity|]. cbn [flat_map length]. rewrite app_length, map_length, seq_length, IH. cbn. lia. Qed.
Lemma added_nth qs : forall i q k, nth_error qs i = Some q -> (k < added)%nat ->
  nth_error (flat_map (fun q => map (E q) (seq 0 added)) qs) (added * i + k) = Some (E q k).
Proof.
  induction qs as [|p qs IH]; intros i q k Hq Hk; [destruct i; discriminate|].
  cbn [flat_map]. destruct i as [|i].
  - injection Hq as ->. rewrite nth_error_app1 by (rewrite map_length, seq_length; lia).
    replace (added * 0 + k)%nat with k by lia. rewrite nth_error_map.
    rewrite (nth_error_nth' (seq 0 added) 0%nat) by (rewrite seq_length; lia). now rewrite seq_nth.
  - rewrite nth_error_app2 by (rewrite map_length, seq_length; nia). rewrite map_length, seq_length.
    replace (added * S i + k - added)%nat with (added * i + k)%nat by nia. apply IH; auto.
Qed.
(** data already there: refused *)
Lemma add_again qs st q : nth_error qs 0 = Some q -> (0 < added)%nat -> st <> [] -> point_loop added body 0 qs st = Fault AssertFailed.
Proof.
  intros Hq Ha Hs. destruct qs as [|p qs]; [discriminate|]. cbn [point_loop]. destruct added as [|m]; [lia|].
  cbn [section_loop]. rewrite Hb. unfold add_data. destruct st as [|d st]; [congruence|]. reflexivity.
Qed.
End Add.

Lemma change_ok qp f st : (qp < length st)%nat -> exists st', change qp f st = Ok st' /\ length st' = length st /\
  nth_error st' qp = option_map f (nth_error st qp) /\ forall j, j <> qp -> nth_error st' j = nth_error st j.
Proof.
  revert qp. induction st as [|d st IH]; intros qp H; [cbn in H; lia|]. destruct qp as [|k]; cbn [change].
  - exists (f d :: st). repeat split; auto. intros [|j] Hj; [congruence|reflexivity].
  - destruct (IH k) as (st' & -> & Hl & Hk & Hj); [cbn in H; lia|]. exists (d :: st'). cbn [bind]. repeat split.
    + cbn. now rewrite Hl.
    + exact Hk.
    + intros [|j] Hne; [reflexivity|]. cbn. apply Hj. congruence.
Qed.
Lemma change_empty qp f : change qp f [] = Fault AssertFailed.
Proof. destruct qp; reflexivity. Qed.

Section Change.
Variable F : qpt -> nat -> pdata -> pdata.
Variable body : nat -> qpt -> nat -> list pdata -> outcome (list pdata).
Hypothesis Hb : forall qp q k st, body qp q k st = change qp (F q k) st.
Lemma change_section qp q todo : forall k st, (qp + k + todo <= length st)%nat -> exists st',
  section_loop (fun qp k => body qp q k) qp k todo st = Ok st' /\ length st' = length st /\
  (forall j, (k <= j < k + todo)%nat -> nth_error st' (qp + j) = option_map (F q j) (nth_error st (qp + j))) /\
  (forall j, (j < qp + k \/ qp + k + todo <= j)%nat -> nth_error st' j = nth_error st j).
Proof.
  induction todo as [|m IH]; intros k st H; cbn [section_loop].
  - exists st. repeat split; auto. intros j Hj. lia.
  - rewrite Hb. destruct (change_ok (qp + k) (F q k) st) as (s1 & -> & L1 & N1 & O1); [lia|]. cbn [bind].
    destruct (IH (S k) s1) as (s2 & E2 & L2 & N2 & O2); [lia|]. exists s2. rewrite E2. repeat split.
    + lia.
    + intros j Hj. destruct (Nat.eq_dec j k) as [->|Hne].
      * rewrite O2 by lia. exact N1.
      * rewrite N2 by lia. now rewrite O1 by lia.
    + intros j Hj. rewrite O2 by lia. apply O1. lia.
Qed.
Lemma change_loop qs : forall i st, ((i + length qs) * added <= length st)%nat -> exists st',
  point_loop added body i qs st = Ok st' /\ length st' = length st /\
  (forall i' q k, nth_error qs i' = Some q -> (k < added)%nat ->
     nth_error st' (added * (i + i') + k) = option_map (F q k) (nth_error st (added * (i + i') + k))) /\
  (forall j, (j < i * added)%nat -> nth_error st' j = nth_error st j).
Proof.
  induction qs as [|p qs IH]; intros i st H; cbn [point_loop].
  - exists st. repeat split; auto. intros [|i'] q k Hq; discriminate.
  - destruct (change_section (i * added) p added 0 st) as (s1 & E1 & L1 & N1 & O1); [cbn in H; nia|]. rewrite E1. cbn [bind].
    destruct (IH (S i) s1) as (s2 & E2 & L2 & N2 & O2); [cbn in *; lia|]. exists s2. rewrite E2. repeat split.
    + lia.
    + intros [|i'] q k Hq Hk.
      * injection Hq as <-. rewrite O2 by nia. replace (added * (i + 0) + k)%nat with (i * added + k)%nat by lia. apply N1. lia.
      * replace (added * (i + S i') + k)%nat with (added * (S i + i') + k)%nat by lia. rewrite (N2 i' q k Hq Hk). f_equal. apply O1. right. nia.
    + intros j Hj. rewrite O2 by (cbn; lia). apply O1. lia.
Qed.
Lemma change_missing qs q : nth_error qs 0 = Some q -> (0 < added)%nat -> point_loop added body 0 qs [] = Fault AssertFailed.
Proof.
  intros Hq Ha. destruct qs as [|p qs]; [discriminate|]. cbn [point_loop]. destruct added as [|m]; [lia|].
  cbn [section_loop]. rewrite Hb, change_empty. reflexivity.
Qed.
End Change.
End Loops.

(** *** Stored sensitivities *)
Lemma put_same f (v : (nat -> R) * (nat -> R)) l : stored f (put f v l) = Some v.
Proof.
  induction l as [|[g w] l IH]; cbn; [now rewrite Nat.eqb_refl|]. destruct (Nat.eqb f g) eqn:E; cbn.
  - now rewrite Nat.eqb_refl.
  - rewrite Nat.eqb_sym, E. exact IH.
Qed.
Lemma put_other f g (v : (nat -> R) * (nat -> R)) l : f <> g -> stored g (put f v l) = stored g l.
Proof.
  intros H. induction l as [|[h w] l IH]; cbn.
  - apply Nat.eqb_neq in H. now rewrite H.
  - destruct (Nat.eqb f h) eqn:E; cbn.
    + apply Nat.eqb_eq in E. subst h. apply Nat.eqb_neq in H. now rewrite H.
    + now rewrite IH.
Qed.

(** *** Operators *)
Lemma vm_rplus n (M N : rmat) u r : vm n (rplus M N) u r = vm n M u r + vm n N u r.
Proof.
  unfold vm, rplus. rewrite <- sum_plus. apply sum_ext. intros c _. rewrite <- sum_plus. apply sum_ext. intros; ring.
Qed.
Lemma vm_eye n m (B : opr) u r : (r < m)%nat -> vm n (lm m B eye) u r = vm n B u r.
Proof.
  intros H. rewrite vm_lm. rewrite (sum_single m r) by (exact H || (intros k Hk Hne; unfold eye; destruct (Nat.eqb_spec r k); [lia|ring])).
  unfold eye. rewrite Nat.eqb_refl. ring.
Qed.
Lemma dot_rows n (M : rmat) r u : dot6 n (M r) u = vm n M u r.
Proof. reflexivity. Qed.
Lemma dot_row_mm n k A (M : rmat) r u : dot6 n (mm k A M r) u = sum k (fun i => A r i * vm n M u i).
Proof.
  change (dot6 n (mm k A M r) u) with (vm n (mm k A M) u r). apply Plate_Proofs.vm_mm.
Qed.
