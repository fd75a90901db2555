From Coq Require Import List Arith Lia Reals Lra Bool.
From Verif Require Import Base BaseLemmas Accum Utility_Model Utility_Spec.
Import ListNotations.
Open Scope nat_scope.

(** a double loop that writes [f i j] at position [pos i j] of an array *)
Lemma double_loop_writes {A} (body : nat -> nat -> arr A -> outcome (arr A)) m n L
    (pos : nat -> nat -> nat) (f : nat -> nat -> A) s :
  len s = L ->
  (forall i j s, i < m -> j < n -> len s = L -> body i j s = set s (pos i j) (f i j)) ->
  (forall i j, i < m -> j < n -> pos i j < L) ->
  (forall i j a b, i < m -> j < n -> a < m -> b < n -> pos i j = pos a b -> i = a /\ j = b) ->
  exists s', loop m (fun i s => loop n (fun j s => body i j s) s) s = Ok s' /\ len s' = L /\
    (forall i j, i < m -> j < n -> cell s' (pos i j) = f i j).
Proof.
  intros HL Hb Hp Hinj.
  destruct (loop_inv (fun I s => len s = L /\ forall i j, i < I -> i < m -> j < n -> cell s (pos i j) = f i j)
      m (fun i s => loop n (fun j s => body i j s) s) s) as (s' & E & L' & C).
  - split; auto. intros; lia.
  - intros I s1 HI [L1 C1].
    destruct (loop_inv (fun J s => len s = L /\
        (forall i j, i < I -> j < n -> cell s (pos i j) = f i j) /\
        (forall j, j < J -> j < n -> cell s (pos I j) = f I j))
        n (fun j s => body I j s) s1) as (s2 & E2 & L2 & C2 & D2).
    + repeat split; auto; intros; lia || (apply C1; lia).
    + intros J s3 HJ (L3 & C3 & D3). rewrite Hb by auto. rewrite set_ok by (rewrite L3; auto).
      eexists; split; [reflexivity|]; simpl. rewrite L3. repeat split; auto.
      * intros i j Hi Hj. rewrite upd_other; auto. intros E. apply Hinj in E; auto; lia.
      * intros j Hj Hjn. destruct (Nat.eq_dec j J) as [->|Hne].
        -- now rewrite upd_same.
        -- rewrite upd_other; [apply D3; lia|]. intros E. apply Hinj in E; auto; lia.
    + exists s2; repeat split; auto. intros i j Hi Him Hj.
      destruct (Nat.eq_dec i I) as [->|Hne]; [apply D2; auto | apply C2; lia].
  - exists s'; repeat split; auto.
Qed.

Lemma double_loop_mwrites {A} (body : nat -> nat -> mat A -> outcome (mat A)) m n
    (f : nat -> nat -> A) s :
  rows s = m -> cols s = n ->
  (forall i j s, i < m -> j < n -> rows s = m -> cols s = n -> body i j s = mset s i j (f i j)) ->
  exists s', loop m (fun i s => loop n (fun j s => body i j s) s) s = Ok s' /\ rows s' = m /\ cols s' = n /\
    (forall i j, i < m -> j < n -> ent s' i j = f i j).
Proof.
  intros HR HC Hb.
  destruct (loop_inv (fun I s => rows s = m /\ cols s = n /\ forall i j, i < I -> i < m -> j < n -> ent s i j = f i j)
      m (fun i s => loop n (fun j s => body i j s) s) s) as (s' & E & L' & C & D).
  - repeat split; auto. intros; lia.
  - intros I s1 HI (R1 & C1 & D1).
    destruct (loop_inv (fun J s => rows s = m /\ cols s = n /\
        (forall i j, i < I -> j < n -> ent s i j = f i j) /\
        (forall j, j < J -> j < n -> ent s I j = f I j))
        n (fun j s => body I j s) s1) as (s2 & E2 & L2 & C2 & D2 & F2).
    + repeat split; auto; intros; lia || (apply D1; lia).
    + intros J s3 HJ (R3 & C3 & D3 & F3). rewrite Hb by auto. rewrite mset_ok by lia.
      eexists; split; [reflexivity|]; simpl. repeat split; auto.
      * intros i j Hi Hj. rewrite upd2_other; auto. lia.
      * intros j Hj Hjn. destruct (Nat.eq_dec j J) as [->|Hne].
        -- now rewrite upd2_same.
        -- rewrite upd2_other; [apply F3; lia|]. lia.
    + exists s2; repeat split; auto. intros i j Hi Him Hj.
      destruct (Nat.eq_dec i I) as [->|Hne]; [apply F2; auto | apply D2; lia].
  - exists s'; repeat split; auto.
Qed.

Lemma flatten_ok {A} (zero : A) m : exists v, flatten zero m = Ok v /\ len v = rows m * cols m /\
  forall i j, i < rows m -> j < cols m -> cell v (rows m * j + i) = ent m i j.
Proof.
  apply (double_loop_writes (fun i j v => x <- mget m i j ;; set v (rows m * j + i) x)
    (rows m) (cols m) (rows m * cols m) (fun i j => rows m * j + i) (fun i j => ent m i j)); auto.
  - intros i j s Hi Hj _. rewrite mget_ok by auto. reflexivity.
  - intros; nia.
  - intros i j a b Hi Hj Ha Hb E. assert (j = b) by nia. subst. split; auto; lia.
Qed.

Lemma unflatten_ok {A} (m : mat A) v : len v = rows m * cols m ->
  exists q, unflatten m v = Ok q /\ rows q = rows m /\ cols q = cols m /\
  forall i j, i < rows m -> j < cols m -> ent q i j = cell v (rows m * j + i).
Proof.
  intros Hv.
  apply (double_loop_mwrites (fun i j s => x <- get v (rows m * j + i) ;; mset s i j x)
    (rows m) (cols m) (fun i j => cell v (rows m * j + i))); auto.
  intros i j s Hi Hj _ _. rewrite get_ok by (rewrite Hv; nia). reflexivity.
Qed.

Lemma map_flatten_ok {A} (zero : A) r c ranks :
  Forall (fun m => rows m = r /\ cols m = c) ranks ->
  exists vs, map_outcome (flatten zero) ranks = Ok vs /\ length vs = length ranks /\
    Forall (fun v => len v = r * c) vs /\
    forall i j, i < r -> j < c -> map (fun v => cell v (r * j + i)) vs = map (fun m => ent m i j) ranks.
Proof.
  induction 1 as [|m t [Hr Hc] Ht IH]; simpl.
  - exists []; repeat split; auto.
  - destruct (flatten_ok zero m) as (v & E & L & C). rewrite E; simpl.
    destruct IH as (vs & E2 & L2 & F2 & C2). rewrite E2; simpl.
    exists (v :: vs); simpl; repeat split; auto.
    + constructor; auto. now rewrite L, Hr, Hc.
    + intros i j Hi Hj. rewrite C2 by auto. f_equal. rewrite <- Hr. apply C; lia.
Qed.

Lemma map_unflatten_ok {A} r c (v : arr A) ranks : len v = r * c ->
  Forall (fun m => rows m = r /\ cols m = c) ranks ->
  exists qs, map_outcome (fun m => unflatten m v) ranks = Ok qs /\ length qs = length ranks /\
    Forall (fun q => rows q = r /\ cols q = c /\
      forall i j, i < r -> j < c -> ent q i j = cell v (r * j + i)) qs.
Proof.
  intros Hv. induction 1 as [|m t [Hr Hc] Ht IH]; simpl.
  - exists []; repeat split; auto.
  - destruct (unflatten_ok m v) as (q & E & L & L' & C); [now rewrite Hr, Hc|]. rewrite E; simpl.
    destruct IH as (vs & E2 & L2 & F2). rewrite E2; simpl.
    exists (q :: vs); simpl; repeat split; auto.
    constructor; auto. rewrite Hr, Hc in *. repeat split; auto.
Qed.

Lemma parallel_sum_ok {A} (plus : A -> A -> A) zero r c ranks :
  ranks <> [] -> Forall (fun m => rows m = r /\ cols m = c) ranks ->
  exists qs, parallel_sum plus zero ranks = Ok qs /\ length qs = length ranks /\
    Forall (fun q => rows q = r /\ cols q = c /\
      forall i j, i < r -> j < c -> ent q i j = fold_right plus zero (map (fun m => ent m i j) ranks)) qs.
Proof.
  intros Hne HF. unfold parallel_sum.
  destruct (map_flatten_ok zero r c ranks HF) as (vs & E & L & F & C). rewrite E; simpl.
  unfold comm_sum. destruct vs as [|v0 vt]; [destruct ranks; simpl in *; [congruence|discriminate]|].
  assert (Hall : forallb (fun v => len v =? len v0) (v0 :: vt) = true).
  { apply forallb_forall. intros v Hv. rewrite Forall_forall in F.
    apply Nat.eqb_eq. rewrite (F v Hv). symmetry; apply F; simpl; auto. }
  rewrite Hall. simpl bind.
  destruct (map_unflatten_ok r c (mkArr (len v0) (fun k => fold_right plus zero
      (map (fun v => cell v k) (v0 :: vt)))) ranks) as (qs & E2 & L2 & F2); auto.
  { simpl. inversion F; auto. }
  exists qs; repeat split; auto.
  eapply Forall_impl; [|exact F2]. intros q (A1 & A2 & A3); repeat split; auto.
  intros i j Hi Hj. rewrite A3 by auto. cbn [cell]. now rewrite C.
Qed.

Open Scope R_scope.
Lemma assemble_matrix_ok a e :
  rows a = (rows e * 2)%nat -> cols a = (cols e * 2)%nat ->
  exists q, add_to_assembled_matrix a e = Ok q /\ rows q = rows a /\ cols q = cols a /\
    forall i j, (i < rows e)%nat -> (j < cols e)%nat ->
      ent q i j = ent a i j + fst (ent e i j) /\
      ent q (i + rows e) (j + cols e) = ent a (i + rows e) (j + cols e) + fst (ent e i j) /\
      ent q i (j + cols e) = ent a i (j + cols e) - snd (ent e i j) /\
      ent q (i + rows e) j = ent a (i + rows e) j + snd (ent e i j).
Proof.
  intros HR HC. unfold add_to_assembled_matrix. rewrite HR, HC, !Nat.eqb_refl. cbn [assert_].
  set (m := rows e) in *. set (n := cols e) in *.
  assert (A : madds (m*2) (n*2) (loop m (fun i s => loop n (fun j s =>
     x <- mget e i j ;; s <- madd s i j (fst x) ;; s <- madd s (i + m) (j + n) (fst x) ;;
     s <- madd s i (j + n) (- snd x) ;; madd s (i + m) j (snd x)) s))
     (fun a b => sum m (fun i => sum n (fun j =>
        (if (a =? i)%nat && (b =? j)%nat then fst (ent e i j) else 0) +
        ((if (a =? i+m)%nat && (b =? j+n)%nat then fst (ent e i j) else 0) +
        ((if (a =? i)%nat && (b =? j+n)%nat then - snd (ent e i j) else 0) +
        (if (a =? i+m)%nat && (b =? j)%nat then snd (ent e i j) else 0))))))).
  { apply madds_loop; intros i Hi. apply madds_loop; intros j Hj.
    apply (madds_mget (m*2) (n*2) e i j (fun x s => s <- madd s i j (fst x) ;; s <- madd s (i + m) (j + n) (fst x) ;;
     s <- madd s i (j + n) (- snd x) ;; madd s (i + m) j (snd x))); auto.
    apply (madds_bind (m*2) (n*2) (fun s => madd s i j (fst (ent e i j)))); [apply madds_madd; lia|].
    apply (madds_bind (m*2) (n*2) (fun s => madd s (i+m) (j+n) (fst (ent e i j)))); [apply madds_madd; lia|].
    apply (madds_bind (m*2) (n*2) (fun s => madd s i (j+n) (- snd (ent e i j)))); [apply madds_madd; lia|].
    apply madds_madd; lia. }
  destruct (A a HR HC) as (q & B1 & B2 & B3 & B4).
  exists q; repeat split; auto.
  all: rewrite B4 by lia; rewrite (sum_single m i), (sum_single n j);
    auto; repeat match goal with |- context[(?a =? ?b)%nat] => destruct (Nat.eqb_spec a b) end; simpl; try lia; try lra.
  all: intros; repeat (apply sum_0; intros); repeat match goal with |- context[(?a =? ?b)%nat] => destruct (Nat.eqb_spec a b) end; simpl; try lia; try lra.
Qed.

Lemma assemble_vector_ok a e :
  len a = (len e * 2)%nat ->
  exists q, add_to_assembled_vector a e = Ok q /\ len q = len a /\
    forall i, (i < len e)%nat -> cell q i = cell a i + fst (cell e i) /\
      cell q (i + len e) = cell a (i + len e) + snd (cell e i).
Proof.
  intros HR. unfold add_to_assembled_vector. rewrite HR, !Nat.eqb_refl. cbn [assert_].
  set (n := len e) in *.
  assert (A : adds (n*2) (loop n (fun i s =>
     x <- get e i ;; s <- vadd s i (fst x) ;; vadd s (i + n) (snd x)))
     (fun a => sum n (fun i =>
        (if (a =? i)%nat then fst (cell e i) else 0) + (if (a =? i+n)%nat then snd (cell e i) else 0)))).
  { apply adds_loop; intros i Hi.
    apply (adds_get (n*2) e i (fun x s => s <- vadd s i (fst x) ;; vadd s (i + n) (snd x))); auto.
    apply (adds_bind (n*2) (fun s => vadd s i (fst (cell e i)))); apply adds_vadd; lia. }
  destruct (A a HR) as (q & B1 & B2 & B3).
  exists q; repeat split; auto.
  all: rewrite B3 by lia; rewrite (sum_single n i);
    auto; repeat match goal with |- context[(?a =? ?b)%nat] => destruct (Nat.eqb_spec a b) end; simpl; try lia; try lra.
  all: intros; repeat match goal with |- context[(?a =? ?b)%nat] => destruct (Nat.eqb_spec a b) end; simpl; try lia; try lra.
Qed.

Lemma to_elem_vector_ok v vr : len vr = (2 * len v)%nat ->
  exists q, transform_to_elem_vector v vr = Ok q /\ len q = len v /\
    forall i, (i < len v)%nat -> cell q i = (cell vr i, cell vr (i + len v)).
Proof.
  intros H. unfold transform_to_elem_vector. rewrite H, Nat.eqb_refl. cbn [assert_].
  destruct (loop_inv (fun I s => len s = len v /\ forall i, (i < I)%nat -> (i < len v)%nat ->
      cell s i = (cell vr i, cell vr (i + len v)))
     (len v) (fun i v0 => a <- get vr i ;; b <- get vr (i + len v) ;; set v0 i (a, b)) v) as (s & E & L & C).
  - split; auto; intros; lia.
  - intros k s Hk [L C]. rewrite !get_ok by lia. simpl. rewrite set_ok by lia.
    eexists; split; [reflexivity|]; simpl; split; auto.
    intros i Hi Hi'. unfold upd. destruct (Nat.eqb_spec i k); subst; auto. apply C; lia.
  - exists s; auto.
Qed.

Lemma to_elem_matrix_ok m mr : rows mr = (2 * rows m)%nat -> cols mr = (2 * cols m)%nat ->
  exists q, transform_to_elem_matrix m mr = Ok q /\ rows q = rows m /\ cols q = cols m /\
    forall i j, (i < rows m)%nat -> (j < cols m)%nat -> ent q i j = (ent mr i j, - ent mr i (j + cols m)).
Proof.
  intros H1 H2. unfold transform_to_elem_matrix. rewrite H1, H2, !Nat.eqb_refl. cbn [assert_].
  apply (double_loop_mwrites (fun i j s => a <- mget mr i j ;; b <- mget mr i (j + cols m) ;; mset s i j (a, - b))
     (rows m) (cols m) (fun i j => (ent mr i j, - ent mr i (j + cols m)))); auto.
  intros i j s Hi Hj _ _. rewrite !mget_ok by lia. reflexivity.
Qed.

Lemma stack_lo n x k : (k < n)%nat -> stack n x k = fst (x k).
Proof. intros H; unfold stack; apply Nat.ltb_lt in H; now rewrite H. Qed.
Lemma stack_hi n x k : stack n x (n + k) = snd (x k).
Proof.
  unfold stack. destruct (Nat.ltb_spec (n+k) n); [lia|]. f_equal; f_equal; lia.
Qed.

(** assembled into a zero matrix, the real product is the stacked complex product *)
Lemma block_product_ok e (x : nat -> R * R) :
  exists q, add_to_assembled_matrix (mfill (rows e * 2) (cols e * 2) 0) e = Ok q /\
    forall i, (i < rows e * 2)%nat ->
      rmv (cols e * 2) (ent q) (stack (cols e) x) i = stack (rows e) (cmv (cols e) (ent e) x) i.
Proof.
  destruct (assemble_matrix_ok (mfill (rows e * 2) (cols e * 2) 0) e) as (q & E & H1 & H2 & H3); auto.
  exists q; split; auto. intros i Hi. unfold rmv.
  replace (cols e * 2)%nat with (cols e + cols e)%nat by lia. rewrite sum_add.
  destruct (Nat.lt_ge_cases i (rows e)) as [Hlo|Hhi].
  - rewrite stack_lo by auto. unfold cmv, csum, cmul; cbn [fst snd].
    rewrite sum_minus.
    rewrite (sum_ext (cols e) (fun j => ent q i j * _) (fun j => fst (ent e i j) * fst (x j))).
    2:{ intros j Hj. destruct (H3 i j Hlo Hj) as (G1 & _). rewrite G1, stack_lo by auto. simpl; ring. }
    rewrite (sum_ext (cols e) (fun k => ent q i (cols e + k) * _) (fun j => - (snd (ent e i j) * snd (x j)))).
    2:{ intros j Hj. destruct (H3 i j Hlo Hj) as (_ & _ & G1 & _). rewrite stack_hi, Nat.add_comm, G1. simpl; ring. }
    rewrite sum_opp; ring.
  - replace i with (rows e + (i - rows e))%nat by lia. set (k := (i - rows e)%nat).
    assert (Hk : (k < rows e)%nat) by (unfold k; lia).
    rewrite stack_hi. unfold cmv, csum, cmul; cbn [fst snd].
    rewrite sum_plus.
    rewrite (sum_ext (cols e) (fun j => ent q (rows e + k) j * _) (fun j => snd (ent e k j) * fst (x j))).
    2:{ intros j Hj. destruct (H3 k j Hk Hj) as (_ & _ & _ & G1). rewrite Nat.add_comm, G1, stack_lo by auto. simpl; ring. }
    rewrite (sum_ext (cols e) (fun k0 => ent q (rows e + k) (cols e + k0) * _) (fun j => (fst (ent e k j) * snd (x j)))).
    2:{ intros j Hj. destruct (H3 k j Hk Hj) as (_ & G1 & _). rewrite stack_hi, (Nat.add_comm (rows e)), (Nat.add_comm (cols e)), G1. simpl; ring. }
    ring.
Qed.

Lemma round_trip_matrix e m0 : rows m0 = rows e -> cols m0 = cols e ->
  exists q b, add_to_assembled_matrix (mfill (rows e * 2) (cols e * 2) 0) e = Ok q /\
    transform_to_elem_matrix m0 q = Ok b /\ rows b = rows e /\ cols b = cols e /\
    forall i j, (i < rows e)%nat -> (j < cols e)%nat -> ent b i j = ent e i j.
Proof.
  intros R0 C0.
  destruct (assemble_matrix_ok (mfill (rows e * 2) (cols e * 2) 0) e) as (q & E & H1 & H2 & H3); auto.
  simpl in H1, H2.
  destruct (to_elem_matrix_ok m0 q) as (b & E2 & G1 & G2 & G3); [lia|lia|].
  exists q, b; repeat split; auto; try lia. intros i j Hi Hj. rewrite G3 by lia.
  rewrite C0. destruct (H3 i j Hi Hj) as (A1 & _ & A2 & _). rewrite A1, A2. simpl.
  destruct (ent e i j); simpl; f_equal; ring.
Qed.

Lemma round_trip_vector e v0 : len v0 = len e ->
  exists q b, add_to_assembled_vector (fill (len e * 2) 0) e = Ok q /\
    transform_to_elem_vector v0 q = Ok b /\ len b = len e /\
    (forall i, (i < len e * 2)%nat -> cell q i = stack (len e) (cell e) i) /\
    forall i, (i < len e)%nat -> cell b i = cell e i.
Proof.
  intros L0.
  destruct (assemble_vector_ok (fill (len e * 2) 0) e) as (q & E & H1 & H3); auto.
  simpl in H1.
  destruct (to_elem_vector_ok v0 q) as (b & E2 & G1 & G3); [lia|].
  exists q, b; repeat split; auto; try lia.
  - intros i Hi. destruct (Nat.lt_ge_cases i (len e)) as [Hlo|Hhi].
    + rewrite stack_lo by auto. destruct (H3 i Hlo) as [A _]. rewrite A; simpl; ring.
    + replace i with (len e + (i - len e))%nat by lia. rewrite stack_hi.
      destruct (H3 (i - len e)%nat ltac:(lia)) as [_ A]. rewrite Nat.add_comm, A; simpl; ring.
  - intros i Hi. rewrite G3 by lia. rewrite L0. destruct (H3 i Hi) as (A1 & A2). rewrite A1, A2. simpl.
    destruct (cell e i); simpl; f_equal; ring.
Qed.
