(** Proofs about the inertia of 1D and 2D elements. *)
From Coq Require Import Reals Lra.
From Coquelicot Require Import Coquelicot.
From Coq Require Import List Arith Bool Lia.
From Verif Require Import Base BaseLemmas RBool Geom_Model Geom_Spec Geom_Proofs Geom_Proofs2.
Import ListNotations.
Open Scope R_scope.

Definition six_by_six (q : ipt) : Prop := rows (inert q) = 6%nat /\ cols (inert q) = 6%nat.
Lemma flat_div n c a : (a < n)%nat -> ((c * n + a) / n = c)%nat.
Proof. intros H. rewrite Nat.div_add_l by lia. rewrite Nat.div_small by auto. lia. Qed.
Lemma flat_mod n c a : (a < n)%nat -> ((c * n + a) mod n = a)%nat.
Proof. intros H. rewrite Nat.add_comm, Nat.mod_add by lia. now apply Nat.mod_small. Qed.

Section Consistent.
Variables (n : nat) (acc : arr R) (req : bool).
Hypothesis HA : len acc = (6 * n)%nat.
Definition cstep (s : outcome (arr R * mat R)) (q : ipt) : outcome (arr R * mat R) :=
  s <- s ;;
  assert_ ((rows (inert q) =? 6) && (cols (inert q) =? 6))%nat
  (v <- mul_mv (mkMat 6 (6 * n) (fun r l => ent (inert q) r (l / n) * iphi q (l mod n))) acc ;;
   Ok (mkArr (6 * n) (fun k => cell (fst s) k + ijxw q * (iphi q (k mod n) * cell v (k / n)%nat)),
       if req then mkMat (6 * n) (6 * n) (fun k l => ent (snd s) k l + ijxw q * mass_point n q k l) else snd s)).
Lemma cfold qs : forall v m, (forall q, In q qs -> six_by_six q) -> len v = (6 * n)%nat -> rows m = (6 * n)%nat -> cols m = (6 * n)%nat ->
  exists r, fold_left cstep qs (Ok (v, m)) = Ok r /\ len (fst r) = (6 * n)%nat /\ rows (snd r) = (6 * n)%nat /\ cols (snd r) = (6 * n)%nat /\
  (forall c a, (c < 6)%nat -> (a < n)%nat -> at_ n (fst r) c a = at_ n v c a +
     integral qs (fun q => iphi q a * sum 6 (fun d => ent (inert q) c d * value n q acc d))) /\
  (forall c a d b, (c < 6)%nat -> (a < n)%nat -> (d < 6)%nat -> (b < n)%nat -> ent (snd r) (c * n + a) (d * n + b) = ent m (c * n + a) (d * n + b) +
     if req then integral qs (fun q => iphi q a * (ent (inert q) c d * iphi q b)) else 0).
Proof.
  induction qs as [|q qs IH]; intros v m HQ Hv Hr Hc.
  - exists (v, m). cbn [fold_left integral fold_right fst snd]. repeat split; auto; intros; [ring|destruct req; ring].
  - destruct (HQ q (or_introl eq_refl)) as [QR QC].
    assert (E : exists v' m', cstep (Ok (v, m)) q = Ok (v', m') /\ len v' = (6 * n)%nat /\ rows m' = (6 * n)%nat /\ cols m' = (6 * n)%nat /\
      (forall c a, (c < 6)%nat -> (a < n)%nat -> at_ n v' c a = at_ n v c a + ijxw q * (iphi q a * sum 6 (fun d => ent (inert q) c d * value n q acc d))) /\
      (forall c a d b, (c < 6)%nat -> (a < n)%nat -> (d < 6)%nat -> (b < n)%nat -> ent m' (c * n + a) (d * n + b) = ent m (c * n + a) (d * n + b) +
         if req then ijxw q * (iphi q a * (ent (inert q) c d * iphi q b)) else 0)).
    { unfold cstep. cbn [bind]. unfold assert_ at 1. rewrite QR, QC. cbn [Nat.eqb andb]. unfold mul_mv. cbn [cols rows ent].
      rewrite HA, Nat.eqb_refl. unfold assert_. cbn [bind fst snd cell].
      eexists. eexists. split; [reflexivity|]. split; [reflexivity|]. split; [destruct req; auto|]. split; [destruct req; auto|]. split.
      - intros c a Hc' Ha. unfold at_. cbn [cell]. rewrite flat_div, flat_mod by auto. f_equal. f_equal. f_equal. rewrite sum_flat. apply sum_ext. intros d Hd.
        unfold value. rewrite <- sum_scal_l. apply sum_ext. intros b Hb. rewrite flat_div, flat_mod by auto. unfold at_. ring.
      - intros c a d b Hc' Ha Hd Hb. destruct req; cbn [ent]; [|ring]. unfold mass_point. rewrite !flat_div, !flat_mod by auto. reflexivity. }
    destruct E as (v' & m' & E & L1 & L2 & L3 & V & M). cbn [fold_left]. rewrite E.
    destruct (IH v' m') as (r & F & K1 & K2 & K3 & KV & KM); auto; [intros; apply HQ; now right|].
    exists r. repeat split; auto.
    + intros c a Hc' Ha. rewrite KV, V by auto. cbn [integral fold_right]. unfold integral. ring.
    + intros c a d b Hc' Ha Hd Hb. rewrite KM, M by auto. destruct req; cbn [integral fold_right]; unfold integral; ring.
Qed.
End Consistent.
Lemma consistent_ok n qs acc req : (forall q, In q qs -> six_by_six q) -> len acc = (6 * n)%nat ->
  exists r, local_inertia n false qs acc req = Ok r /\ len (fst r) = (6 * n)%nat /\ rows (snd r) = (6 * n)%nat /\ cols (snd r) = (6 * n)%nat /\
  (forall c a, (c < 6)%nat -> (a < n)%nat -> at_ n (fst r) c a =
     integral qs (fun q => iphi q a * sum 6 (fun d => ent (inert q) c d * value n q acc d))) /\
  (forall c a d b, (c < 6)%nat -> (a < n)%nat -> (d < 6)%nat -> (b < n)%nat -> ent (snd r) (c * n + a) (d * n + b) =
     if req then integral qs (fun q => iphi q a * (ent (inert q) c d * iphi q b)) else 0).
Proof.
  intros HQ HA. destruct (cfold n acc req HA qs (fill (6 * n) 0) (mfill (6 * n) (6 * n) 0) HQ) as (r & E & L1 & L2 & L3 & V & M); try reflexivity.
  exists r. split; [exact E|]. repeat split; auto.
  - intros. rewrite V by auto. unfold at_, fill. cbn [cell]. ring.
  - intros. rewrite M by auto. cbn [ent mfill]. ring.
Qed.
Section Diagonal.
Variables (n : nat) (vol : R) (D : mat R).
Hypothesis DR : rows D = 6%nat.
Hypothesis DC : cols D = 6%nat.
Definition dinv (c' a' : nat) (m : mat R) : Prop := rows m = (6 * n)%nat /\ cols m = (6 * n)%nat /\
  forall c a d b, (c < 6)%nat -> (a < n)%nat -> (d < 6)%nat -> (b < n)%nat -> ent m (c * n + a) (d * n + b) =
  if ((c =? d) && (a =? b) && ((c <? c') || (c =? c') && (a <? a')))%nat then vol * ent D c c else 0.
Lemma diag_loop : exists m, loop 6 (fun c m => loop n (fun a m => d <- mget D c c ;; mset m (c * n + a) (c * n + a) (vol * d)) m) (mfill (6 * n) (6 * n) 0) = Ok m /\ dinv 6 0 m.
Proof.
  apply (loop_inv (fun c m => dinv c 0 m)).
  - split; [reflexivity|]. split; [reflexivity|]. intros. cbn [ent mfill]. destruct (Nat.ltb_spec c 0); [lia|]. destruct (Nat.ltb_spec a 0); [lia|].
    cbn [orb]. now rewrite !andb_false_r.
  - intros c' m Hc' I.
    destruct (loop_inv (fun a m => dinv c' a m) n (fun a m => d <- mget D c' c' ;; mset m (c' * n + a) (c' * n + a) (vol * d)) m) as (m' & E & J); [exact I| |].
    + intros a' m1 Ha' (R1 & C1 & V). rewrite mget_ok by (rewrite ?DR, ?DC; auto). cbn [bind].
      assert (B : (c' * n + a' < 6 * n)%nat) by nia. rewrite mset_ok by (rewrite ?R1, ?C1; auto).
      eexists. split; [reflexivity|]. split; [exact R1|]. split; [exact C1|]. intros c a d b Hc Ha Hd Hb. cbn [ent]. unfold upd2.
      rewrite !flat_eqb by auto. rewrite V by auto.
      destruct (Nat.eqb_spec c c'), (Nat.eqb_spec a a'), (Nat.eqb_spec d c'), (Nat.eqb_spec b a'), (Nat.eqb_spec c d), (Nat.eqb_spec a b),
        (Nat.ltb_spec c c'), (Nat.ltb_spec a a'), (Nat.ltb_spec a (S a')); try lia; cbn [andb orb]; try reflexivity. now subst.
    + exists m'. split; [exact E|]. destruct J as (R1 & C1 & V). split; [exact R1|]. split; [exact C1|]. intros c a d b Hc Ha Hd Hb. rewrite V by auto.
      destruct (Nat.ltb_spec a n); [|lia]. destruct (Nat.ltb_spec a 0); [lia|]. rewrite !andb_false_r, orb_false_r, andb_true_r.
      destruct (Nat.ltb_spec c c'), (Nat.eqb_spec c c'), (Nat.ltb_spec c (S c')); try lia; reflexivity.
Qed.
End Diagonal.
Definition volume (qs : list ipt) : R := integral qs (fun _ => 1).
Lemma vol_fold qs : forall s, fold_left (fun v q => v + ijxw q) qs s = s + volume qs.
Proof.
  unfold volume, integral. induction qs as [|q qs IH]; intros s; cbn [fold_left fold_right]; [ring|]. rewrite IH. ring.
Qed.
Lemma diagonal_ok n q0 qs acc req : six_by_six q0 -> len acc = (6 * n)%nat ->
  exists r, local_inertia n true (q0 :: qs) acc req = Ok r /\ len (fst r) = (6 * n)%nat /\ rows (snd r) = (6 * n)%nat /\ cols (snd r) = (6 * n)%nat /\
  (forall c a, (c < 6)%nat -> (a < n)%nat -> at_ n (fst r) c a = volume (q0 :: qs) / INR n * ent (inert q0) c c * at_ n acc c a) /\
  (forall c a d b, (c < 6)%nat -> (a < n)%nat -> (d < 6)%nat -> (b < n)%nat -> ent (snd r) (c * n + a) (d * n + b) =
     volume (q0 :: qs) / INR n * ent (inert q0) c c * (kron c d * kron a b)).
Proof.
  intros [DR DC] HA. unfold local_inertia. rewrite vol_fold, Rplus_0_l.
  destruct (diag_loop n (volume (q0 :: qs) / INR n) (inert q0) DR DC) as (m & E & R1 & C1 & V). rewrite E. cbn [bind]. unfold mul_mv. rewrite C1, HA, Nat.eqb_refl. unfold assert_. cbn [bind].
  assert (M : forall c a d b, (c < 6)%nat -> (a < n)%nat -> (d < 6)%nat -> (b < n)%nat -> ent m (c * n + a) (d * n + b) =
     volume (q0 :: qs) / INR n * ent (inert q0) c c * (kron c d * kron a b)).
  { intros c a d b Hc Ha Hd Hb. rewrite V by auto. destruct (Nat.ltb_spec c 6); [|lia]. cbn [orb]. rewrite andb_true_r. unfold kron.
    destruct (Nat.eqb c d), (Nat.eqb a b); cbn [andb]; ring. }
  eexists. split; [reflexivity|]. cbn [fst snd len]. repeat split; auto.
  intros c a Hc Ha. unfold at_. cbn [cell]. rewrite sum_flat.
  rewrite (sum_single 6 c); [|exact Hc|].
  - transitivity (sum n (fun b => kron a b * (volume (q0 :: qs) / INR n * ent (inert q0) c c * cell acc (c * n + b)%nat))).
    + apply sum_ext. intros b Hb. rewrite M by auto. unfold kron at 1. rewrite Nat.eqb_refl. ring.
    + now rewrite (sum_kron n a (fun b => volume (q0 :: qs) / INR n * ent (inert q0) c c * cell acc (c * n + b)%nat)).
  - intros d Hd Hne. apply sum_0. intros b Hb. rewrite M by auto. unfold kron. destruct (Nat.eqb_spec c d); [congruence|ring].
Qed.
(** both forms give the product of the mass matrix and the acceleration *)
Lemma local_mass n diagonal qs acc r : (forall q, In q qs -> six_by_six q) -> len acc = (6 * n)%nat ->
  local_inertia n diagonal qs acc true = Ok r ->
  len (fst r) = (6 * n)%nat /\ rows (snd r) = (6 * n)%nat /\ cols (snd r) = (6 * n)%nat /\
  forall k, (k < 6 * n)%nat -> cell (fst r) k = cell (apply (snd r) acc) k.
Proof.
  intros HQ HA H. destruct diagonal.
  - destruct qs as [|q0 qs]; [discriminate|]. destruct (diagonal_ok n q0 qs acc true (HQ q0 (or_introl eq_refl)) HA) as (r' & E & L1 & L2 & L3 & V & M).
    rewrite H in E. injection E as <-. repeat split; auto. intros k Hk. destruct (split6 n k Hk) as (c & a & Hc & Ha & ->).
    change (cell (fst r) (c * n + a)) with (at_ n (fst r) c a). rewrite V by auto. unfold apply. cbn [cell]. rewrite L3, sum_flat. rewrite (sum_single 6 c); [|exact Hc|].
    + symmetry. transitivity (sum n (fun b => kron a b * (volume (q0 :: qs) / INR n * ent (inert q0) c c * cell acc (c * n + b)%nat))).
      * apply sum_ext. intros b Hb. rewrite M by auto. unfold kron at 1. rewrite Nat.eqb_refl. ring.
      * now rewrite (sum_kron n a (fun b => volume (q0 :: qs) / INR n * ent (inert q0) c c * cell acc (c * n + b)%nat)).
    + intros d Hd Hne. apply sum_0. intros b Hb. rewrite M by auto. unfold kron. destruct (Nat.eqb_spec c d); [congruence|ring].
  - destruct (consistent_ok n qs acc true HQ HA) as (r' & E & L1 & L2 & L3 & V & M). rewrite H in E. injection E as <-. repeat split; auto.
    intros k Hk. destruct (split6 n k Hk) as (c & a & Hc & Ha & ->). change (cell (fst r) (c * n + a)) with (at_ n (fst r) c a). rewrite V by auto.
    unfold apply. cbn [cell]. rewrite L3, sum_flat.
    transitivity (sum 6 (fun d => sum n (fun b => integral qs (fun q => iphi q a * (ent (inert q) c d * iphi q b)) * cell acc (d * n + b)%nat))).
    + clear H V M L1 L2 L3 HQ. unfold integral. induction qs as [|q qs IH]; cbn [fold_right].
      * symmetry. apply sum_0. intros; apply sum_0. intros; ring.
      * rewrite IH. rewrite <- sum_scal_l, <- sum_scal_l, <- sum_plus. apply sum_ext. intros d Hd. unfold value. rewrite <- !sum_scal_l, <- sum_plus. apply sum_ext.
        intros b Hb. unfold at_. ring.
    + apply sum_ext. intros d Hd. apply sum_ext. intros b Hb. now rewrite M.
Qed.
