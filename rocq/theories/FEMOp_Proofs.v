(** Proofs about FEMOp_Model. *)
From Coq Require Import List Arith Lia Reals Lra Bool.
From Verif Require Import Base BaseLemmas Accum FEMOp_Model FEMOp_Spec.
Import ListNotations.
Open Scope R_scope.

Definition bent (o : option (arr R)) (k : nat) : R :=
  match o with Some s => cell s k | None => 0 end.

(** the operator state represents the history *)
Record rep (op : femop) (n_iv n_dv nd : nat) (h : list (nat * nat * arr R)) : Prop := {
  rep_niv : niv op = n_iv;
  rep_ndv : ndv op = n_dv;
  rep_nd  : ndof op = nd;
  rep_len : len (blk op) = (n_iv * n_dv)%nat;
  rep_blk : forall i j, (i < n_iv)%nat -> (j < n_dv)%nat ->
            cell (blk op) (j * n_iv + i) = last_given h i j }.

Lemma last_given_app h1 h2 i j :
  last_given (h1 ++ h2) i j =
  match last_given h2 i j with Some s => Some s | None => last_given h1 i j end.
Proof.
  induction h1 as [|[[a b] s] t IH]; simpl.
  - destruct (last_given h2 i j); auto.
  - rewrite IH. destruct (last_given h2 i j); auto.
Qed.

Lemma last_given_len n_iv n_dv nd h i j s :
  valid_calls n_iv n_dv nd h -> last_given h i j = Some s -> len s = nd.
Proof.
  intros H; induction H as [|[[a b] s0] t Hc Ht IH]; simpl; [discriminate|].
  destruct (last_given t i j); [intros E; inversion E; subst; auto|].
  destruct ((a =? i) && (b =? j)); [|discriminate].
  intros E; inversion E; subst. simpl in Hc; tauto.
Qed.

Lemma rep_reinit n_iv n_dv nd : rep (fem_reinit n_iv n_dv nd) n_iv n_dv nd [].
Proof. split; simpl; auto. Qed.

Lemma rep_set op n_iv n_dv nd h i j s :
  rep op n_iv n_dv nd h -> (i < n_iv)%nat -> (j < n_dv)%nat ->
  exists op', fem_set_shape_function op i j s = Ok op' /\ rep op' n_iv n_dv nd (h ++ [(i, j, s)]).
Proof.
  intros [H1 H2 H3 H4 H5] Hi Hj. unfold fem_set_shape_function.
  assert (Hb : (j * n_iv + i < n_iv * n_dv)%nat) by nia.
  rewrite H4, H1, H2.
  destruct (Nat.eqb_spec (n_iv * n_dv) 0); [nia|]. simpl.
  apply Nat.ltb_lt in Hi as Hi'; apply Nat.ltb_lt in Hj as Hj'. rewrite Hi', Hj'; simpl.
  rewrite get_ok by (rewrite H4; auto). simpl.
  rewrite set_ok by (rewrite H4; auto). simpl. rewrite H4.
  eexists; split; [reflexivity|]. split; simpl; auto.
  intros a b Ha Hb'. rewrite last_given_app; simpl.
  destruct (Nat.eqb_spec i a) as [->|Hia]; [destruct (Nat.eqb_spec j b) as [->|Hjb]|]; simpl.
  - now rewrite upd_same.
  - rewrite upd_other; auto. intros E; apply flat_inj in E; auto; lia.
  - rewrite upd_other; auto. intros E; apply flat_inj in E; auto; lia.
Qed.

Lemma build_rep n_iv n_dv nd h : valid_calls n_iv n_dv nd h ->
  exists op, fem_build n_iv n_dv nd h = Ok op /\ rep op n_iv n_dv nd h.
Proof.
  unfold fem_build.
  induction h as [|c h IH] using rev_ind; intros Hv.
  - exists (fem_reinit n_iv n_dv nd); split; [reflexivity|apply rep_reinit].
  - rewrite fold_left_app; simpl.
    apply Forall_app in Hv as [Hv Hc]. inversion Hc as [|? ? (Hi & Hj & Hl) _]; subst.
    destruct IH as (op & E & Hr); auto. rewrite E; simpl.
    destruct c as [[i j] s]; simpl in *. now apply rep_set.
Qed.

Lemma dense_block nd h i j k : (k < nd)%nat ->
  dense nd h i (j * nd + k) = bent (last_given h i j) k.
Proof.
  intros Hk. unfold dense.
  rewrite (Nat.add_comm (j*nd)), Nat.div_add, Nat.mod_add by lia.
  rewrite Nat.div_small, Nat.mod_small by lia. reflexivity.
Qed.

Lemma dense_at nd h i c : dense nd h i c = bent (last_given h i (c / nd)) (c mod nd).
Proof. reflexivity. Qed.

Lemma block_sum n d (g : nat -> nat -> R) :
  sum n (fun j => sum d (fun k => g j k)) = sum (n * d) (fun c => g (c / d)%nat (c mod d)).
Proof.
  rewrite sum_mul. apply sum_ext; intros j _; apply sum_ext; intros k Hk.
  rewrite (Nat.add_comm (j*d)), Nat.div_add, Nat.mod_add by lia.
  now rewrite Nat.div_small, Nat.mod_small by lia.
Qed.

Lemma divmod n c : (0 < n)%nat -> (c / n * n + c mod n)%nat = c.
Proof. intros H. rewrite (Nat.div_mod c n) at 3 by lia. lia. Qed.

Ltac zero := intros; repeat (apply sum_0; intros);
  repeat match goal with |- context[(?a =? ?b)%nat] => destruct (Nat.eqb_spec a b) end;
  simpl; try reflexivity; try lra; exfalso; try congruence; try lia.

Section Products.
Variables (op : femop) (n_iv n_dv nd : nat) (h : list (nat * nat * arr R)).
Hypothesis (Hrep : rep op n_iv n_dv nd h) (Hval : valid_calls n_iv n_dv nd h).

Lemma blk_case i j L (f : option (arr R) -> arr R -> outcome (arr R)) D :
  (i < n_iv)%nat -> (j < n_dv)%nat ->
  adds L (f (last_given h i j)) D ->
  adds L (fun s => bind (get (blk op) (j * n_iv + i)) (fun p => f p s)) D.
Proof.
  intros Hi Hj H. apply (adds_get L (blk op) _ f).
  - rewrite (rep_len _ _ _ _ _ Hrep); nia.
  - rewrite (rep_blk _ _ _ _ _ Hrep) by auto. auto.
Qed.

Lemma mblk_case i j r c (f : option (arr R) -> mat R -> outcome (mat R)) D :
  (i < n_iv)%nat -> (j < n_dv)%nat ->
  madds r c (f (last_given h i j)) D ->
  madds r c (fun s => bind (get (blk op) (j * n_iv + i)) (fun p => f p s)) D.
Proof.
  intros Hi Hj H. apply (madds_get r c (blk op) _ f).
  - rewrite (rep_len _ _ _ _ _ Hrep); nia.
  - rewrite (rep_blk _ _ _ _ _ Hrep) by auto. auto.
Qed.

Lemma vector_mult_ok res v :
  len res = n_iv -> len v = (n_dv * nd)%nat ->
  exists r, fem_vector_mult op res v = Ok r /\ len r = n_iv /\
    forall i, (i < n_iv)%nat -> cell r i = mv (n_dv * nd) (dense nd h) (cell v) i.
Proof.
  intros Hr Hv. destruct Hrep as [E1 E2 E3 _ _]. unfold fem_vector_mult, fem_n.
  rewrite Hr, Hv, E1, E2, E3, !Nat.eqb_refl. cbn [assert_].
  assert (A : adds n_iv (loop n_iv (fun i res => loop n_dv (fun j res =>
       p <- get (blk op) (j * n_iv + i) ;;
       match p with
       | Some s => loop nd (fun k res =>
                     a <- get s k ;; b <- get v (j * nd + k) ;; vadd res i (a * b)%R) res
       | None => Ok res
       end) res))
     (fun a => sum n_iv (fun i => sum n_dv (fun j => sum nd (fun k =>
        if a =? i then bent (last_given h i j) k * cell v (j*nd+k) else 0))))).
  { apply adds_loop; intros i Hi. apply adds_loop; intros j Hj.
    apply (blk_case i j n_iv (fun p res => match p with
       | Some s => loop nd (fun k res =>
                     a <- get s k ;; b <- get v (j * nd + k) ;; vadd res i (a * b)%R) res
       | None => Ok res
       end)); auto.
    destruct (last_given h i j) as [s|] eqn:El.
    - pose proof (last_given_len _ _ _ _ _ _ _ Hval El) as Hs.
      apply adds_loop; intros k Hk.
      apply (adds_get n_iv s k (fun a res => b <- get v (j*nd+k) ;; vadd res i (a*b))); [lia|].
      apply (adds_get n_iv v _ (fun b res => vadd res i (cell s k * b))); [rewrite Hv; nia|].
      simpl. now apply adds_vadd.
    - eapply adds_ext; [apply adds_ret|]. intros a Ha; simpl. rewrite sum_0; auto.
      intros k _; destruct (a =? i); lra. }
  destruct (A (fill n_iv 0)) as (s' & B1 & B2 & B3); [reflexivity|].
  exists s'; repeat split; auto. intros a Ha. rewrite B3 by auto. simpl.
  rewrite (sum_single n_iv a); auto.
  - rewrite Rplus_0_l. unfold mv. rewrite sum_mul. apply sum_ext; intros j Hj.
    apply sum_ext; intros k Hk. rewrite Nat.eqb_refl, dense_block by auto. reflexivity.
  - intros i Hi Hne. apply sum_0; intros j _. apply sum_0; intros k _.
    destruct (Nat.eqb_spec a i); [congruence|reflexivity].
Qed.

Lemma vector_mult_transpose_ok res v :
  len res = (n_dv * nd)%nat -> len v = n_iv ->
  exists r, fem_vector_mult_transpose op res v = Ok r /\ len r = (n_dv * nd)%nat /\
    forall c, (c < n_dv * nd)%nat -> cell r c = mv n_iv (transpose (dense nd h)) (cell v) c.
Proof.
  intros Hr Hv. destruct Hrep as [E1 E2 E3 _ _]. unfold fem_vector_mult_transpose, fem_n.
  rewrite Hr, Hv, E1, E2, E3, !Nat.eqb_refl. cbn [assert_].
  assert (A : adds (n_dv*nd) (loop n_iv (fun i res => loop n_dv (fun j res =>
       p <- get (blk op) (j * n_iv + i) ;;
       match p with
       | Some s => loop nd (fun k res =>
                     a <- get s k ;; b <- get v i ;; vadd res (j * nd + k) (a * b)%R) res
       | None => Ok res
       end) res))
     (fun a => sum n_iv (fun i => sum n_dv (fun j => sum nd (fun k =>
        if (a =? j*nd+k)%nat then bent (last_given h i j) k * cell v i else 0))))).
  { apply adds_loop; intros i Hi. apply adds_loop; intros j Hj.
    apply (blk_case i j (n_dv*nd) (fun p res => match p with
       | Some s => loop nd (fun k res =>
                     a <- get s k ;; b <- get v i ;; vadd res (j * nd + k) (a * b)%R) res
       | None => Ok res
       end)); auto.
    destruct (last_given h i j) as [s|] eqn:El.
    - pose proof (last_given_len _ _ _ _ _ _ _ Hval El) as Hs.
      apply adds_loop; intros k Hk.
      apply (adds_get (n_dv*nd) s k (fun a res => b <- get v i ;; vadd res (j*nd+k) (a*b))); [lia|].
      apply (adds_get (n_dv*nd) v _ (fun b res => vadd res (j*nd+k) (cell s k * b))); [lia|].
      simpl. apply adds_vadd. nia.
    - eapply adds_ext; [apply adds_ret|]. intros a Ha; simpl. rewrite sum_0; auto.
      intros k _; destruct (_ =? _)%nat; lra. }
  destruct (A (fill (n_dv*nd) 0)) as (s' & B1 & B2 & B3); [reflexivity|].
  exists s'; repeat split; auto. intros c Hc. rewrite B3 by auto. simpl.
  rewrite Rplus_0_l. unfold mv, transpose. apply sum_ext; intros i Hi.
  assert (Hnd : (0 < nd)%nat) by nia.
  rewrite block_sum.
  rewrite (sum_single (n_dv*nd) c); auto.
  - rewrite divmod, Nat.eqb_refl by auto. now rewrite dense_at.
  - intros k Hk Hne. rewrite divmod by auto. destruct (Nat.eqb_spec c k); [congruence|reflexivity].
Qed.

Lemma right_multiply_ok r m :
  rows r = n_iv -> cols r = (cols m) -> rows m = (n_dv * nd)%nat -> cols m = cols m ->
  exists q, fem_right_multiply op r m = Ok q /\ rows q = n_iv /\ cols q = (cols m) /\
    forall a b, (a < n_iv)%nat -> (b < (cols m))%nat -> ent q a b = mm (n_dv*nd) (dense nd h) (ent m) a b.
Proof.
  intros H1 H2 H3 H4. destruct Hrep as [E1 E2 E3 _ _]. unfold fem_right_multiply, fem_n.
  rewrite H1, H2, E1, E2, E3. 
  rewrite ?H3, ?H4, !Nat.eqb_refl. cbn [assert_].
  assert (A : madds n_iv (cols m) (loop n_iv (fun i r => loop n_dv (fun j r =>
       p <- get (blk op) (j * n_iv + i) ;; match p with
       | Some s => loop (cols m) (fun l r =>
                     loop nd (fun k r =>
                       a <- get s k ;; b <- mget m (j * nd + k) l ;; madd r i l (a * b)%R) r) r
       | None => Ok r
       end) r))
     (fun a b => sum n_iv (fun i => sum n_dv (fun j => sum (cols m) (fun l => sum nd (fun k =>
        if (a =? i)%nat && (b =? l)%nat then bent (last_given h i j) k * ent m (j * nd + k) l else 0)))))).
  { apply madds_loop; intros i Hi. apply madds_loop; intros j Hj.
    apply (mblk_case i j n_iv (cols m) (fun p r => match p with
       | Some s => loop (cols m) (fun l r =>
                     loop nd (fun k r =>
                       a <- get s k ;; b <- mget m (j * nd + k) l ;; madd r i l (a * b)%R) r) r
       | None => Ok r
       end)); auto.
    destruct (last_given h i j) as [s|] eqn:El.
    - pose proof (last_given_len _ _ _ _ _ _ _ Hval El) as Hs.
      apply madds_loop; intros l Hl. apply madds_loop; intros k Hk.
      apply (madds_get n_iv (cols m) s k (fun a r => b <- mget m (j * nd + k) l ;; madd r i l (a*b))); [lia|].
      apply (madds_mget n_iv (cols m) m _ _ (fun b r => madd r i l (cell s k * b))); [nia|nia|].
      simpl. apply madds_madd; nia.
    - eapply madds_ext; [apply madds_ret|]. intros a b Ha Hb. symmetry; zero. }
  destruct (A (mfill n_iv (cols m) 0)) as (s' & B1 & B2 & B3 & B4); [reflexivity|reflexivity|].
  exists s'; repeat split; auto. intros a b Ha Hb. rewrite B4 by auto. simpl.
  rewrite Rplus_0_l. rewrite (sum_single n_iv a) by (auto; zero).
  unfold mm. rewrite sum_mul. apply sum_ext; intros j Hj.
  rewrite (sum_single (cols m) b) by (auto; zero).
  apply sum_ext; intros k Hk. now rewrite !Nat.eqb_refl, dense_block.
Qed.

Lemma right_multiply_transpose_ok r m :
  rows r = (n_dv * nd)%nat -> cols r = (cols m) -> rows m = n_iv -> cols m = cols m ->
  exists q, fem_right_multiply_transpose op r m = Ok q /\ rows q = (n_dv * nd)%nat /\ cols q = (cols m) /\
    forall a b, (a < (n_dv * nd)%nat)%nat -> (b < (cols m))%nat -> ent q a b = mm n_iv (transpose (dense nd h)) (ent m) a b.
Proof.
  intros H1 H2 H3 H4. destruct Hrep as [E1 E2 E3 _ _]. unfold fem_right_multiply_transpose, fem_n.
  rewrite H1, H2, E1, E2, E3. 
  rewrite ?H3, ?H4, !Nat.eqb_refl. cbn [assert_].
  assert (A : madds (n_dv * nd)%nat (cols m) (loop n_iv (fun i r => loop n_dv (fun j r =>
       p <- get (blk op) (j * n_iv + i) ;; match p with
       | Some s => loop (cols m) (fun l r =>
                     loop nd (fun k r =>
                       a <- get s k ;; b <- mget m i l ;; madd r (j * nd + k) l (a * b)%R) r) r
       | None => Ok r
       end) r))
     (fun a b => sum n_iv (fun i => sum n_dv (fun j => sum (cols m) (fun l => sum nd (fun k =>
        if (a =? (j * nd + k))%nat && (b =? l)%nat then bent (last_given h i j) k * ent m i l else 0)))))).
  { apply madds_loop; intros i Hi. apply madds_loop; intros j Hj.
    apply (mblk_case i j (n_dv * nd)%nat (cols m) (fun p r => match p with
       | Some s => loop (cols m) (fun l r =>
                     loop nd (fun k r =>
                       a <- get s k ;; b <- mget m i l ;; madd r (j * nd + k) l (a * b)%R) r) r
       | None => Ok r
       end)); auto.
    destruct (last_given h i j) as [s|] eqn:El.
    - pose proof (last_given_len _ _ _ _ _ _ _ Hval El) as Hs.
      apply madds_loop; intros l Hl. apply madds_loop; intros k Hk.
      apply (madds_get (n_dv * nd)%nat (cols m) s k (fun a r => b <- mget m i l ;; madd r (j * nd + k) l (a*b))); [lia|].
      apply (madds_mget (n_dv * nd)%nat (cols m) m _ _ (fun b r => madd r (j * nd + k) l (cell s k * b))); [nia|nia|].
      simpl. apply madds_madd; nia.
    - eapply madds_ext; [apply madds_ret|]. intros a b Ha Hb. symmetry; zero. }
  destruct (A (mfill (n_dv * nd)%nat (cols m) 0)) as (s' & B1 & B2 & B3 & B4); [reflexivity|reflexivity|].
  exists s'; repeat split; auto. intros a b Ha Hb. rewrite B4 by auto. simpl.
  rewrite Rplus_0_l. unfold mm, transpose. apply sum_ext; intros i Hi.
  rewrite (sum_ext n_dv _ (fun j => sum nd (fun k => if (a =? j*nd+k)%nat then bent (last_given h i j) k * ent m i b else 0))).
  2:{ intros j Hj. rewrite (sum_single (cols m) b) by (auto; zero).
      apply sum_ext; intros k Hk. now rewrite Nat.eqb_refl, andb_true_r. }
  assert (Hnd : (0 < nd)%nat) by nia.
  rewrite block_sum, (sum_single (n_dv*nd) a); auto.
  - now rewrite divmod, Nat.eqb_refl by auto.
  - intros k Hk Hne. rewrite divmod by auto. destruct (Nat.eqb_spec a k); [congruence|reflexivity].
Qed.

Lemma left_multiply_ok r m :
  rows r = (rows m) -> cols r = (n_dv * nd)%nat -> rows m = rows m -> cols m = n_iv ->
  exists q, fem_left_multiply op r m = Ok q /\ rows q = (rows m) /\ cols q = (n_dv * nd)%nat /\
    forall a b, (a < (rows m))%nat -> (b < (n_dv * nd)%nat)%nat -> ent q a b = mm n_iv (ent m) (dense nd h) a b.
Proof.
  intros H1 H2 H3 H4. destruct Hrep as [E1 E2 E3 _ _]. unfold fem_left_multiply, fem_n.
  rewrite H1, H2, E1, E2, E3. 
  rewrite ?H3, ?H4, !Nat.eqb_refl. cbn [assert_].
  assert (A : madds (rows m) (n_dv * nd)%nat (loop n_iv (fun i r => loop n_dv (fun j r =>
       p <- get (blk op) (j * n_iv + i) ;; match p with
       | Some s => loop (rows m) (fun l r =>
                     loop nd (fun k r =>
                       a <- get s k ;; b <- mget m l i ;; madd r l (j * nd + k) (a * b)%R) r) r
       | None => Ok r
       end) r))
     (fun a b => sum n_iv (fun i => sum n_dv (fun j => sum (rows m) (fun l => sum nd (fun k =>
        if (a =? l)%nat && (b =? (j * nd + k))%nat then bent (last_given h i j) k * ent m l i else 0)))))).
  { apply madds_loop; intros i Hi. apply madds_loop; intros j Hj.
    apply (mblk_case i j (rows m) (n_dv * nd)%nat (fun p r => match p with
       | Some s => loop (rows m) (fun l r =>
                     loop nd (fun k r =>
                       a <- get s k ;; b <- mget m l i ;; madd r l (j * nd + k) (a * b)%R) r) r
       | None => Ok r
       end)); auto.
    destruct (last_given h i j) as [s|] eqn:El.
    - pose proof (last_given_len _ _ _ _ _ _ _ Hval El) as Hs.
      apply madds_loop; intros l Hl. apply madds_loop; intros k Hk.
      apply (madds_get (rows m) (n_dv * nd)%nat s k (fun a r => b <- mget m l i ;; madd r l (j * nd + k) (a*b))); [lia|].
      apply (madds_mget (rows m) (n_dv * nd)%nat m _ _ (fun b r => madd r l (j * nd + k) (cell s k * b))); [nia|nia|].
      simpl. apply madds_madd; nia.
    - eapply madds_ext; [apply madds_ret|]. intros a b Ha Hb. symmetry; zero. }
  destruct (A (mfill (rows m) (n_dv * nd)%nat 0)) as (s' & B1 & B2 & B3 & B4); [reflexivity|reflexivity|].
  exists s'; repeat split; auto. intros a b Ha Hb. rewrite B4 by auto. simpl.
  rewrite Rplus_0_l. unfold mm. apply sum_ext; intros i Hi.
  rewrite (sum_ext n_dv _ (fun j => sum nd (fun k => if (b =? j*nd+k)%nat then bent (last_given h i j) k * ent m a i else 0))).
  2:{ intros j Hj. rewrite (sum_single (rows m) a) by (auto; zero).
      apply sum_ext; intros k Hk. now rewrite Nat.eqb_refl. }
  assert (Hnd : (0 < nd)%nat) by nia.
  rewrite block_sum, (sum_single (n_dv*nd) b); auto.
  - rewrite divmod, Nat.eqb_refl by auto. rewrite dense_at; ring.
  - intros k Hk Hne. rewrite divmod by auto. destruct (Nat.eqb_spec b k); [congruence|reflexivity].
Qed.

Lemma left_multiply_transpose_ok r m :
  rows r = (rows m) -> cols r = n_iv -> rows m = rows m -> cols m = (n_dv * nd)%nat ->
  exists q, fem_left_multiply_transpose op r m = Ok q /\ rows q = (rows m) /\ cols q = n_iv /\
    forall a b, (a < (rows m))%nat -> (b < n_iv)%nat -> ent q a b = mm (n_dv*nd) (ent m) (transpose (dense nd h)) a b.
Proof.
  intros H1 H2 H3 H4. destruct Hrep as [E1 E2 E3 _ _]. unfold fem_left_multiply_transpose, fem_n.
  rewrite H1, H2, E1, E2, E3. 
  rewrite ?H3, ?H4, !Nat.eqb_refl. cbn [assert_].
  assert (A : madds (rows m) n_iv (loop n_iv (fun i r => loop n_dv (fun j r =>
       p <- get (blk op) (j * n_iv + i) ;; match p with
       | Some s => loop (rows m) (fun l r =>
                     loop nd (fun k r =>
                       a <- get s k ;; b <- mget m l (j * nd + k) ;; madd r l i (a * b)%R) r) r
       | None => Ok r
       end) r))
     (fun a b => sum n_iv (fun i => sum n_dv (fun j => sum (rows m) (fun l => sum nd (fun k =>
        if (a =? l)%nat && (b =? i)%nat then bent (last_given h i j) k * ent m l (j * nd + k) else 0)))))).
  { apply madds_loop; intros i Hi. apply madds_loop; intros j Hj.
    apply (mblk_case i j (rows m) n_iv (fun p r => match p with
       | Some s => loop (rows m) (fun l r =>
                     loop nd (fun k r =>
                       a <- get s k ;; b <- mget m l (j * nd + k) ;; madd r l i (a * b)%R) r) r
       | None => Ok r
       end)); auto.
    destruct (last_given h i j) as [s|] eqn:El.
    - pose proof (last_given_len _ _ _ _ _ _ _ Hval El) as Hs.
      apply madds_loop; intros l Hl. apply madds_loop; intros k Hk.
      apply (madds_get (rows m) n_iv s k (fun a r => b <- mget m l (j * nd + k) ;; madd r l i (a*b))); [lia|].
      apply (madds_mget (rows m) n_iv m _ _ (fun b r => madd r l i (cell s k * b))); [nia|nia|].
      simpl. apply madds_madd; nia.
    - eapply madds_ext; [apply madds_ret|]. intros a b Ha Hb. symmetry; zero. }
  destruct (A (mfill (rows m) n_iv 0)) as (s' & B1 & B2 & B3 & B4); [reflexivity|reflexivity|].
  exists s'; repeat split; auto. intros a b Ha Hb. rewrite B4 by auto. simpl.
  rewrite Rplus_0_l. rewrite (sum_single n_iv b) by (auto; zero).
  unfold mm, transpose. rewrite sum_mul. apply sum_ext; intros j Hj.
  rewrite (sum_single (rows m) a) by (auto; zero).
  apply sum_ext; intros k Hk. rewrite !Nat.eqb_refl, dense_block by auto. simpl. ring.
Qed.
End Products.

Lemma right_multiply_transpose_op_ok op n_iv n_dv nd h op2 n_dv2 nd2 h2 r :
  rep op n_iv n_dv nd h -> valid_calls n_iv n_dv nd h ->
  rep op2 n_iv n_dv2 nd2 h2 -> valid_calls n_iv n_dv2 nd2 h2 ->
  rows r = (n_dv * nd)%nat -> cols r = (n_dv2 * nd2)%nat ->
  exists q, fem_right_multiply_transpose_op op r op2 = Ok q /\
    rows q = (n_dv * nd)%nat /\ cols q = (n_dv2 * nd2)%nat /\
    forall a b, (a < n_dv * nd)%nat -> (b < n_dv2 * nd2)%nat ->
      ent q a b = mm n_iv (transpose (dense nd h)) (dense nd2 h2) a b.
Proof.
  intros Hr1 Hv1 Hr2 Hv2 H1 H2.
  pose proof Hr1 as [E1 E2 E3 _ _]. pose proof Hr2 as [F1 F2 F3 _ _].
  unfold fem_right_multiply_transpose_op, fem_n.
  rewrite H1, H2, E1, E2, E3, F1, F2, F3, !Nat.eqb_refl. cbn [assert_].
  set (RR := (n_dv * nd)%nat). set (CC := (n_dv2 * nd2)%nat).
  assert (A : madds RR CC (loop n_dv (fun i r => loop n_dv2 (fun j r => loop n_iv (fun k r =>
         p1 <- get (blk op) (i * n_iv + k) ;;
         match p1 with
         | None => Ok r
         | Some n1 =>
           p2 <- get (blk op2) (j * n_iv + k) ;;
           match p2 with
           | None => Ok r
           | Some n2 =>
             loop (len n1) (fun i1 r =>
               loop (len n2) (fun i2 r =>
                 a <- get n1 i1 ;; b <- get n2 i2 ;;
                 madd r (i * nd + i1) (j * nd2 + i2) (a * b)%R) r) r
           end
         end) r) r))
    (fun a b => sum n_dv (fun i => sum n_dv2 (fun j => sum n_iv (fun k => sum nd (fun i1 => sum nd2 (fun i2 =>
       if (a =? i*nd+i1)%nat && (b =? j*nd2+i2)%nat then bent (last_given h k i) i1 * bent (last_given h2 k j) i2 else 0))))))).
  { apply madds_loop; intros i Hi. apply madds_loop; intros j Hj. apply madds_loop; intros k Hk.
    apply (mblk_case op n_iv n_dv nd h Hr1 k i RR CC (fun p1 r =>
         match p1 with
         | None => Ok r
         | Some n1 =>
           p2 <- get (blk op2) (j * n_iv + k) ;;
           match p2 with
           | None => Ok r
           | Some n2 =>
             loop (len n1) (fun i1 r =>
               loop (len n2) (fun i2 r =>
                 a <- get n1 i1 ;; b <- get n2 i2 ;;
                 madd r (i * nd + i1) (j * nd2 + i2) (a * b)%R) r) r
           end
         end)); auto.
    destruct (last_given h k i) as [s|] eqn:El.
    2:{ eapply madds_ext; [apply madds_ret|]. intros a b Ha Hb; symmetry; zero. }
    pose proof (last_given_len _ _ _ _ _ _ _ Hv1 El) as Hs.
    apply (mblk_case op2 n_iv n_dv2 nd2 h2 Hr2 k j RR CC (fun p2 r =>
           match p2 with
           | None => Ok r
           | Some n2 =>
             loop (len s) (fun i1 r =>
               loop (len n2) (fun i2 r =>
                 a <- get s i1 ;; b <- get n2 i2 ;;
                 madd r (i * nd + i1) (j * nd2 + i2) (a * b)%R) r) r
           end)); auto.
    destruct (last_given h2 k j) as [s2|] eqn:El2.
    2:{ eapply madds_ext; [apply madds_ret|]. intros a b Ha Hb; symmetry; zero. }
    pose proof (last_given_len _ _ _ _ _ _ _ Hv2 El2) as Hs2.
    rewrite Hs, Hs2.
    apply madds_loop; intros i1 Hi1. apply madds_loop; intros i2 Hi2.
    apply (madds_get RR CC s i1 (fun a r => b <- get s2 i2 ;; madd r (i*nd+i1) (j*nd2+i2) (a*b))); [lia|].
    apply (madds_get RR CC s2 i2 (fun b r => madd r (i*nd+i1) (j*nd2+i2) (cell s i1*b))); [lia|].
    simpl. apply madds_madd; unfold RR, CC; nia. }
  destruct (A (mfill RR CC 0)) as (s' & B1 & B2 & B3 & B4); [reflexivity|reflexivity|].
  exists s'; repeat split; auto. intros a b Ha Hb. rewrite B4 by auto. simpl. rewrite Rplus_0_l.
  assert (Hnd : (0 < nd)%nat) by nia. assert (Hnd2 : (0 < nd2)%nat) by nia.
  unfold mm, transpose.
  (* bring i1 next to i, i2 next to j *)
  rewrite (sum_ext n_dv _ (fun i => sum nd (fun i1 =>
     if (a =? i*nd+i1)%nat then sum n_iv (fun k => bent (last_given h k i) i1 * dense nd2 h2 k b) else 0))).
  2:{ intros i Hi.
      rewrite (sum_ext n_dv2 _ (fun j => sum nd (fun i1 => sum n_iv (fun k => sum nd2 (fun i2 =>
       if (a =? i*nd+i1)%nat && (b =? j*nd2+i2)%nat then bent (last_given h k i) i1 * bent (last_given h2 k j) i2 else 0)))))
        by (intros; apply sum_swap).
      rewrite sum_swap. apply sum_ext; intros i1 Hi1.
      destruct (a =? i*nd+i1)%nat; [|zero]. simpl.
      rewrite sum_swap. apply sum_ext; intros k Hk.
      rewrite block_sum, (sum_single (n_dv2*nd2) b); auto.
      - now rewrite divmod, Nat.eqb_refl by auto.
      - intros x Hx Hne. rewrite divmod by auto. destruct (Nat.eqb_spec b x); [congruence|reflexivity]. }
  rewrite block_sum, (sum_single (n_dv*nd) a); auto.
  - rewrite divmod, Nat.eqb_refl by auto. apply sum_ext; intros; now rewrite dense_at.
  - intros x Hx Hne. rewrite divmod by auto. destruct (Nat.eqb_spec a x); [congruence|reflexivity].
Qed.

Lemma adjoint_dense n m (A : nat -> nat -> R) x y :
  dot n (mv m A x) y = dot m x (mv n (transpose A) y).
Proof.
  unfold dot, mv, transpose.
  rewrite (sum_ext n _ (fun i => sum m (fun c => A i c * x c * y i)))
    by (intros; now rewrite <- sum_scal_r).
  rewrite sum_swap. apply sum_ext; intros c Hc. rewrite <- sum_scal_l.
  apply sum_ext; intros; ring.
Qed.

(** reinit(n, shape): the block diagonal operator *)
Lemma reinit_shape_rep n s :
  exists op, fem_reinit_shape n s = Ok op /\
    rep op n n (len s) (map (fun i => (i, i, s)) (seq 0 n)).
Proof.
  unfold fem_reinit_shape.
  destruct (loop_inv (fun k (b : arr (option (arr R))) => len b = (n*n)%nat /\
      forall i j, (i < n)%nat -> (j < n)%nat ->
        cell b (j*n+i) = last_given (map (fun i => (i,i,s)) (seq 0 k)) i j)
      n (fun i b => set b (i * n + i) (Some s)) (fill (n*n) None)) as (b & E & L & C).
  - simpl; auto.
  - intros k b Hk [L C]. rewrite set_ok by (rewrite L; nia). rewrite L.
    eexists; split; [reflexivity|]; cbn [len cell]; split; auto.
    intros i j Hi Hj. rewrite seq_S, map_app, last_given_app; simpl.
    destruct (Nat.eqb_spec k i) as [->|Hki]; [destruct (Nat.eqb_spec i j) as [->|Hij]|]; simpl.
    + now rewrite upd_same.
    + rewrite upd_other; auto. intros E; apply flat_inj in E; auto; lia.
    + rewrite upd_other; auto. intros E; apply flat_inj in E; auto; lia.
  - rewrite E; simpl. eexists; split; [reflexivity|]. split; simpl; auto.
Qed.

Lemma reinit_shape_valid n s : valid_calls n n (len s) (map (fun i => (i, i, s)) (seq 0 n)).
Proof.
  apply Forall_forall. intros c Hc. apply in_map_iff in Hc as (i & <- & Hi).
  apply in_seq in Hi; simpl; lia.
Qed.

Lemma adjoint_ok op n_iv n_dv nd h : rep op n_iv n_dv nd h -> valid_calls n_iv n_dv nd h ->
  forall res1 res2 x y,
    len res1 = n_iv -> len res2 = (n_dv * nd)%nat -> len x = (n_dv * nd)%nat -> len y = n_iv ->
  exists r1 r2, fem_vector_mult op res1 x = Ok r1 /\ fem_vector_mult_transpose op res2 y = Ok r2 /\
    len r1 = n_iv /\ len r2 = (n_dv * nd)%nat /\
    dot n_iv (cell r1) (cell y) = dot (n_dv * nd) (cell x) (cell r2).
Proof.
  intros Hr Hv res1 res2 x y L1 L2 L3 L4.
  destruct (vector_mult_ok _ _ _ _ _ Hr Hv res1 x L1 L3) as (r1 & A1 & B1 & C1).
  destruct (vector_mult_transpose_ok _ _ _ _ _ Hr Hv res2 y L2 L4) as (r2 & A2 & B2 & C2).
  exists r1, r2; repeat split; auto.
  transitivity (dot n_iv (mv (n_dv*nd) (dense nd h) (cell x)) (cell y)).
  - apply sum_ext; intros; now rewrite C1.
  - rewrite adjoint_dense. apply sum_ext; intros; now rewrite C2.
Qed.

Lemma last_given_diag n s i j : (i < n)%nat ->
  last_given (map (fun i => (i, i, s)) (seq 0 n)) i j = if (i =? j)%nat then Some s else None.
Proof.
  intros Hi. revert Hi.
  assert (G : forall m a, last_given (map (fun i => (i, i, s)) (seq a m)) i j =
            if ((a <=? i) && (i <? a + m) && (i =? j))%nat then Some s else None).
  { induction m as [|m IH]; intros a; simpl.
    - destruct (Nat.leb_spec a i), (Nat.ltb_spec i (a+0)); simpl; auto; lia.
    - rewrite IH.
      destruct (Nat.leb_spec (S a) i), (Nat.ltb_spec i (S a+m)), (Nat.leb_spec a i),
        (Nat.ltb_spec i (a + S m)), (Nat.eqb_spec i j), (Nat.eqb_spec a i), (Nat.eqb_spec a j);
        simpl; auto; lia. }
  intros Hi. rewrite G. apply Nat.ltb_lt in Hi. simpl. rewrite Hi. reflexivity.
Qed.

Lemma same_shape_dense n s v i : (i < n)%nat ->
  mv (n * len s) (dense (len s) (map (fun i => (i, i, s)) (seq 0 n))) v i =
  sum (len s) (fun k => cell s k * v (i * len s + k)%nat).
Proof.
  intros Hi. unfold mv. rewrite sum_mul, (sum_single n i); auto.
  - apply sum_ext; intros k Hk. rewrite dense_block, last_given_diag, Nat.eqb_refl by auto. reflexivity.
  - intros j Hj Hne. apply sum_0; intros k Hk. rewrite dense_block, last_given_diag by auto.
    destruct (Nat.eqb_spec i j); [congruence|simpl; lra].
Qed.

Lemma short_shape : exists op s,
  fem_build 1 1 2 [(0%nat, 0%nat, s)] = Ok op /\
  fem_vector_mult op (fill 1 0) (fill 2 0) = Fault OutOfBounds.
Proof. eexists. exists (fill 1 1). split; reflexivity. Qed.

Lemma long_shape : exists op s q,
  fem_build 1 2 1 [(0%nat, 0%nat, s)] = Ok op /\
  fem_right_multiply_transpose_op op (mfill 2 2 0) op = Ok q /\
  ent q 1%nat 1%nat <> 0.
Proof.
  eexists. exists (fill 2 1). eexists. split; [reflexivity|]. split; [reflexivity|].
  cbv -[Rplus Rmult IZR]. lra.
Qed.
