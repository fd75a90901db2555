(** Proofs about the section cards: layers. *)
From Coquelicot Require Import Coquelicot.
From Coq Require Import List Arith Bool Reals Lra Lia.
From Verif Require Import Base BaseLemmas RBool Mat_Model Mat_Spec Mat_Proofs Coor_Model Coor_Proofs Sect_Model Sect_Spec Sect_Proofs.
Import ListNotations.
Open Scope R_scope.

Lemma sum_first_eq hs : forall n, (n <= length hs)%nat -> sum_first n hs = Ok (total (firstn n hs)).
Proof.
  induction hs as [|h hs IH]; intros [|n] H; cbn in H; try lia; [reflexivity|reflexivity|].
  cbn [sum_first firstn]. rewrite IH by lia. reflexivity.
Qed.
Lemma fold_base c hs : forall x, fold_left (fun m v => m - c * v) hs x = x - c * total hs.
Proof. induction hs as [|h hs IH]; intros x; cbn [fold_left total fold_right]; [ring|]. rewrite IH. unfold total. ring. Qed.
Lemma layer_offset_eq base hs i : (i < length hs)%nat ->
  layer_offset base i hs = Ok (total (firstn i hs) + 1 / 2 * nth i hs 0 - 1 / 2 * (1 + base) * total hs).
Proof.
  intros H. unfold layer_offset. rewrite sum_first_eq by lia. cbn [bind]. unfold nth_h. rewrite (nth_error_nth' hs 0 H). cbn [bind].
  rewrite fold_base. reflexivity.
Qed.
Lemma total_snoc l x : total (l ++ [x]) = total l + x.
Proof. unfold total. induction l as [|a l IH]; cbn; [ring|]. rewrite IH. ring. Qed.
Lemma firstn_snoc (hs : list R) : forall i, (i < length hs)%nat -> firstn (S i) hs = firstn i hs ++ [nth i hs 0].
Proof. induction hs as [|h hs IH]; intros [|i] H; cbn in H; try lia; [reflexivity|]. cbn [firstn nth app]. f_equal. rewrite <- IH by lia. reflexivity. Qed.
Lemma layer_between base hs i o : (i < length hs)%nat -> layer_offset base i hs = Ok o ->
  o - nth i hs 0 / 2 = interface base hs i /\ o + nth i hs 0 / 2 = interface base hs (S i).
Proof.
  intros H E. rewrite layer_offset_eq in E by auto. injection E as <-. unfold interface. rewrite firstn_snoc, total_snoc by auto. split; field.
Qed.

Lemma each_ok {A} (f : nat -> outcome A) (g : nat -> A) : forall n, (forall i, (i < n)%nat -> f i = Ok (g i)) -> each n f = Ok (map g (seq 0 n)).
Proof.
  induction n as [|n IH]; intros H; [reflexivity|]. cbn [each]. rewrite IH by (intros; apply H; lia). cbn [bind]. rewrite H by lia. cbn [bind].
  rewrite seq_S, map_app. reflexivity.
Qed.
Lemma add_all_ok r c : forall l m, rows m = r -> cols m = c -> Forall (fun x => rows x = r /\ cols x = c) l ->
  exists M, add_all m l = Ok M /\ rows M = r /\ cols M = c /\ forall i j, ent M i j = ent m i j + total (map (fun x => ent x i j) l).
Proof.
  induction l as [|x l IH]; intros m Hr Hc F; cbn [add_all].
  - exists m. split; [reflexivity|]. split; [auto|]. split; [auto|]. intros; unfold total; cbn; ring.
  - inversion F as [|? ? (Xr & Xc) F']; subst x0 l0. rewrite (eta m r c Hr Hc), (eta x r c Xr Xc). rewrite madd_eq. cbn [bind].
    destruct (IH (mkMat r c (fun i j => ent m i j + ent x i j)) eq_refl eq_refl F') as (M & E & Mr & Mc & H). exists M. split; [exact E|]. split; [auto|]. split; [auto|].
    intros i j. rewrite H. unfold total. cbn. ring.
Qed.
Lemma total_seq (f : nat -> R) n : total (map f (seq 0 n)) = sum n f.
Proof. induction n as [|n IH]; [reflexivity|]. rewrite seq_S, map_app. cbn [map]. rewrite total_snoc, IH. reflexivity. Qed.
Lemma layer_sum_ok r c g n m0 : (0 < n)%nat -> (forall k, (k < n)%nat -> rows (g k) = r /\ cols (g k) = c) ->
  exists M, layer_sum m0 (map g (seq 0 n)) = Ok M /\ rows M = r /\ cols M = c /\ forall i j, ent M i j = sum n (fun k => ent (g k) i j).
Proof.
  intros Hn H. destruct n as [|n]; [lia|]. set (l := map g (seq 0 (S n))).
  assert (E0 : exists l', l = g 0%nat :: l') by (eexists; reflexivity). destruct E0 as (l' & E0). destruct (H 0%nat ltac:(lia)) as (gr & gc).
  assert (F : Forall (fun x => rows x = r /\ cols x = c) l).
  { apply Forall_forall. intros x Hx. apply in_map_iff in Hx. destruct Hx as (k & <- & Hk). apply in_seq in Hk. apply H. lia. }
  destruct (add_all_ok r c l (mfill r c 0) eq_refl eq_refl F) as (M & E & Mr & Mc & HM).
  exists M. split; [|split; [auto|split; [auto|]]].
  - rewrite E0 in *. cbn [layer_sum]. rewrite gr, gc. exact E.
  - intros i j. rewrite HM. unfold l. rewrite map_map, total_seq. cbn. ring.
Qed.
(** A matrix of the whole stack is the sum of the matrices of the layers in their places. *)
Lemma layered2_ok f base (l : list sec) m0 r c (g : nat -> sec -> mat R) : l <> [] -> (forall i o, (i < length l)%nat -> let s := with_off (nth i l (fun _ => 0)) o in f i s = Ok (g i s) /\ rows (g i s) = r /\ cols (g i s) = c) ->
  exists M, layered2 f base l m0 = Ok M /\ rows M = r /\ cols M = c /\
    forall i j, ent M i j = sum (length l) (fun k => ent (g k (with_off (nth k l (fun _ => 0)) (total (firstn k (map (fun s => s h_) l)) + 1 / 2 * nth k (map (fun s => s h_) l) 0 - 1 / 2 * (1 + base) * total (map (fun s => s h_) l)))) i j).
Proof.
  intros N F. unfold layered2.
  rewrite (each_ok _ (fun k => g k (with_off (nth k l (fun _ => 0)) (total (firstn k (map (fun s => s h_) l)) + 1 / 2 * nth k (map (fun s => s h_) l) 0 - 1 / 2 * (1 + base) * total (map (fun s => s h_) l))))).
  - cbn [bind]. apply layer_sum_ok; [destruct l; [contradiction|cbn; lia]|]. intros k Hk. apply F; auto.
  - intros i Hi. rewrite layer_offset_eq by (rewrite map_length; auto). cbn [bind]. rewrite (nth_error_nth' l (fun _ => 0) Hi). apply F; auto.
Qed.
Lemma layered1_ok f base (l : list sec) m0 r c (g : nat -> sec -> mat R) : l <> [] -> (forall i o, (i < length l)%nat -> let s := with_oz (nth i l (fun _ => 0)) o in f i s = Ok (g i s) /\ rows (g i s) = r /\ cols (g i s) = c) ->
  exists M, layered1 f base l m0 = Ok M /\ rows M = r /\ cols M = c /\
    forall i j, ent M i j = sum (length l) (fun k => ent (g k (with_oz (nth k l (fun _ => 0)) (total (firstn k (map (fun s => s hz_) l)) + 1 / 2 * nth k (map (fun s => s hz_) l) 0 - 1 / 2 * (1 + base) * total (map (fun s => s hz_) l)))) i j).
Proof.
  intros N F. unfold layered1.
  rewrite (each_ok _ (fun k => g k (with_oz (nth k l (fun _ => 0)) (total (firstn k (map (fun s => s hz_) l)) + 1 / 2 * nth k (map (fun s => s hz_) l) 0 - 1 / 2 * (1 + base) * total (map (fun s => s hz_) l))))).
  - cbn [bind]. apply layer_sum_ok; [destruct l; [contradiction|cbn; lia]|]. intros k Hk. apply F; auto.
  - intros i Hi. rewrite layer_offset_eq by (rewrite map_length; auto). cbn [bind]. rewrite (nth_error_nth' l (fun _ => 0) Hi). apply F; auto.
Qed.
Lemma sum_swap n m f : sum n (fun i => sum m (fun j => f i j)) = sum m (fun j => sum n (fun i => f i j)).
Proof.
  induction n as [|n IH]; cbn [sum]; [induction m; cbn [sum]; [reflexivity|rewrite <- IHm; ring]|]. rewrite IH, <- sum_plus. reflexivity.
Qed.
Lemma sum_scl n (c : R) f : sum n (fun i => c * f i) = c * sum n f.
Proof. induction n as [|n IH]; cbn [sum]; [ring|rewrite IH; ring]. Qed.
Lemma nth_map_h (p : sec -> R) (l : list sec) k : (k < length l)%nat -> nth k (map p l) 0 = p (nth k l (fun _ => 0)).
Proof. intros H. rewrite (nth_indep _ 0 (p (fun _ => 0))) by (rewrite map_length; auto). apply map_nth. Qed.
(** The place of layer k. *)
Definition place2 (base : R) (l : list sec) (k : nat) : sec :=
  with_off (nth k l (fun _ => 0)) (total (firstn k (map (fun s => s h_) l)) + 1 / 2 * nth k (map (fun s => s h_) l) 0 - 1 / 2 * (1 + base) * total (map (fun s => s h_) l)).
Definition place1 (base : R) (l : list sec) (k : nat) : sec :=
  with_oz (nth k l (fun _ => 0)) (total (firstn k (map (fun s => s hz_) l)) + 1 / 2 * nth k (map (fun s => s hz_) l) 0 - 1 / 2 * (1 + base) * total (map (fun s => s hz_) l)).
Lemma place2_through base (l : list sec) k f : (k < length l)%nat ->
  RInt f (interface base (map (fun s => s h_) l) k) (interface base (map (fun s => s h_) l) (S k)) = through (place2 base l k) f.
Proof.
  intros H. assert (Hm : (k < length (map (fun s => s h_) l))%nat) by (rewrite map_length; auto).
  destruct (layer_between base _ k _ Hm (layer_offset_eq base _ k Hm)) as (<- & <-). unfold through, over, place2, place1, with_off, with_oz. rewrite !nth_map_h by auto. reflexivity.
Qed.
Lemma place1_over base (l : list sec) k f : (k < length l)%nat ->
  RInt (fun y => RInt (fun z => f y z) (interface base (map (fun s => s hz_) l) k) (interface base (map (fun s => s hz_) l) (S k)))
    (nth k l (fun _ => 0) oy_ - nth k l (fun _ => 0) hy_ / 2) (nth k l (fun _ => 0) oy_ + nth k l (fun _ => 0) hy_ / 2) = over (place1 base l k) f.
Proof.
  intros H. assert (Hm : (k < length (map (fun s => s hz_) l))%nat) by (rewrite map_length; auto).
  destruct (layer_between base _ k _ Hm (layer_offset_eq base _ k Hm)) as (<- & <-). unfold through, over, place2, place1, with_off, with_oz. rewrite !nth_map_h by auto. reflexivity.
Qed.
Lemma place2_h base (l : list sec) k : (k < length l)%nat -> place2 base l k h_ = nth k l (fun _ => 0) h_.
Proof. reflexivity. Qed.
