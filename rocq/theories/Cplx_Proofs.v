From Coq Require Import Reals List Arith Lia Lra Bool.
From Verif Require Import Base BaseLemmas Accum Cplx_Model Cplx_Spec.
Import ListNotations.
Open Scope R_scope.

Lemma fst_csum n f : fst (csum n f) = sum n (fun i => fst (f i)).
Proof. induction n; simpl; auto. now rewrite IHn. Qed.
Lemma snd_csum n f : snd (csum n f) = sum n (fun i => snd (f i)).
Proof. induction n; simpl; auto. now rewrite IHn. Qed.
Lemma fst_clsum l : fst (clsum l) = lsum (map fst l).
Proof. induction l; simpl; auto. now rewrite IHl. Qed.
Lemma snd_clsum l : snd (clsum l) = lsum (map snd l).
Proof. induction l; simpl; auto. now rewrite IHl. Qed.
Lemma fst_if (b : bool) (x : cpx) : fst (if b then x else c0) = if b then fst x else 0.
Proof. now destruct b. Qed.
Lemma snd_if (b : bool) (x : cpx) : snd (if b then x else c0) = if b then snd x else 0.
Proof. now destruct b. Qed.

Section P.
  Variables (K : constrain) (p : bool) (X : vec) (N : nat).

  Lemma add_vecs_adds es : in_range N es ->
    adds (2 * N) (add_vecs K p X es) (fun q => lsum (map (fun e => sum (e_n e) (fun i =>
      (if Nat.eqb q (2 * e_dof e i) then v_R K p X e i else 0) +
      (if Nat.eqb q (2 * e_dof e i + 1) then v_I K p X e i else 0))) es)).
  Proof.
    induction es as [|e es IH]; intros H.
    - apply adds_ret.
    - cbn [add_vecs map lsum fold_right]. apply adds_bind.
      + unfold add_vec. apply adds_loop. intros i Hi. assert (e_dof e i < N)%nat by (apply H; simpl; auto).
        apply adds_bind; apply adds_vadd; lia.
      + apply IH. intros e' i Hin. apply H. now right.
  Qed.

  Lemma add_mats_adds es : in_range N es ->
    madds (2 * N) (2 * N) (add_mats K X es) (fun q r => lsum (map (fun e => sum (e_n e) (fun i => sum (e_n e) (fun j =>
      (if Nat.eqb q (2 * e_dof e i) && Nat.eqb r (2 * e_dof e j) then m_R K X e i j else 0) +
      ((if Nat.eqb q (2 * e_dof e i) && Nat.eqb r (2 * e_dof e j + 1) then m_I1 K X e i j else 0) +
      ((if Nat.eqb q (2 * e_dof e i + 1) && Nat.eqb r (2 * e_dof e j) then m_I2 K X e i j else 0) +
      (if Nat.eqb q (2 * e_dof e i + 1) && Nat.eqb r (2 * e_dof e j + 1) then m_R K X e i j else 0))))) ) es)).
  Proof.
    induction es as [|e es IH]; intros H.
    - apply madds_ret.
    - cbn [add_mats map lsum fold_right]. apply madds_bind.
      + unfold add_mat. apply madds_loop with (D := fun i q r => sum (e_n e) (fun j => _)). intros i Hi.
        apply madds_loop. intros j Hj.
        assert (e_dof e i < N)%nat by (apply H; simpl; auto).
        assert (e_dof e j < N)%nat by (apply H; simpl; auto).
        unfold add_block. apply madds_bind; [apply madds_madd; lia|].
        apply madds_bind; [apply madds_madd; lia|].
        apply madds_bind; apply madds_madd; lia.
      + apply IH. intros e' i Hin. apply H. now right.
  Qed.

  Lemma eqb_ee a b : Nat.eqb (2 * a) (2 * b) = Nat.eqb b a.
  Proof. destruct (Nat.eqb_spec (2*a) (2*b)), (Nat.eqb_spec b a); auto; lia. Qed.
  Lemma eqb_oo a b : Nat.eqb (2 * a + 1) (2 * b + 1) = Nat.eqb b a.
  Proof. destruct (Nat.eqb_spec (2*a+1) (2*b+1)), (Nat.eqb_spec b a); auto; lia. Qed.
  Lemma eqb_eo a b : Nat.eqb (2 * a) (2 * b + 1) = false.
  Proof. apply Nat.eqb_neq. lia. Qed.
  Lemma eqb_oe a b : Nat.eqb (2 * a + 1) (2 * b) = false.
  Proof. apply Nat.eqb_neq. lia. Qed.

  Definition cmat (e : celem) (i j : nat) : cpx := (m_R K X e i j, m_I2 K X e i j).
  Definition cvec (e : celem) (i : nat) : cpx := (v_R K p X e i, v_I K p X e i).

  Lemma assembled es : in_range N es ->
    (forall e i j, In e es -> (i < e_n e)%nat -> (j < e_n e)%nat -> m_I1 K X e i j = - m_I2 K X e i j) ->
    exists r J, residual_and_jacobian_blocked K p X N es = Ok (r, J) /\
      (forall a, (a < N)%nat -> cell r (2 * a) = fst (global_vec cvec es a) /\
                                cell r (2 * a + 1) = snd (global_vec cvec es a)) /\
      (forall a b, (a < N)%nat -> (b < N)%nat ->
         ent J (2 * a) (2 * b) = fst (global_mat cmat es a b) /\
         ent J (2 * a) (2 * b + 1) = - snd (global_mat cmat es a b) /\
         ent J (2 * a + 1) (2 * b) = snd (global_mat cmat es a b) /\
         ent J (2 * a + 1) (2 * b + 1) = fst (global_mat cmat es a b)).
  Proof.
    intros Hr Hneg. unfold residual_and_jacobian_blocked.
    destruct (add_vecs_adds es Hr (fill (2 * N) 0) eq_refl) as (r & -> & _ & Er).
    destruct (add_mats_adds es Hr (mfill (2 * N) (2 * N) 0) eq_refl eq_refl) as (J & -> & _ & _ & EJ).
    simpl bind. exists r, J. split; [reflexivity|]. split.
    - intros a Ha. rewrite !Er by lia. unfold global_vec. rewrite fst_clsum, snd_clsum, !map_map.
      cbn [fill cell]. rewrite !Rplus_0_l.
      split; f_equal; apply map_ext; intros e; [rewrite fst_csum|rewrite snd_csum]; apply sum_ext; intros i Hi;
        [rewrite fst_if, eqb_ee, eqb_eo|rewrite snd_if, eqb_oo, eqb_oe]; unfold cvec; simpl; ring.
    - intros a b Ha Hb. rewrite !EJ by lia. unfold global_mat. rewrite fst_clsum, snd_clsum, !map_map.
      cbn [mfill ent]. rewrite !Rplus_0_l.
      assert (Z : forall (b1 b2 : bool) (x : R), (if b1 && b2 then x else 0) = if b1 && b2 then x else 0) by auto.
      split; [|split; [|split]].
      + f_equal; apply map_ext; intros e; rewrite fst_csum; apply sum_ext; intros i Hi; rewrite fst_csum;
          apply sum_ext; intros j Hj. rewrite fst_if, !eqb_ee, !eqb_eo, ?andb_false_r, ?andb_false_l. unfold cmat; simpl. ring.
      + replace (- lsum (map (fun x => snd (csum (e_n x) (fun i => csum (e_n x) (fun j =>
            if Nat.eqb (e_dof x i) a && Nat.eqb (e_dof x j) b then cmat x i j else c0)))) es))
          with (lsum (map (fun x => -1 * snd (csum (e_n x) (fun i => csum (e_n x) (fun j =>
            if Nat.eqb (e_dof x i) a && Nat.eqb (e_dof x j) b then cmat x i j else c0)))) es))
          by (rewrite lsum_map_scal; ring).
        f_equal; apply map_ext_in; intros e He. rewrite snd_csum, <- sum_scal_l. apply sum_ext; intros i Hi; rewrite snd_csum.
        rewrite <- sum_scal_l. apply sum_ext; intros j Hj.
        rewrite snd_if, !eqb_ee, !eqb_eo, !eqb_oo, !eqb_oe, ?andb_false_r, ?andb_false_l. unfold cmat; simpl.
        destruct (_ && _); [rewrite (Hneg e i j He Hi Hj)|]; ring.
      + f_equal; apply map_ext; intros e; rewrite snd_csum; apply sum_ext; intros i Hi; rewrite snd_csum;
          apply sum_ext; intros j Hj. rewrite snd_if, !eqb_ee, !eqb_eo, !eqb_oo, !eqb_oe, ?andb_false_r, ?andb_false_l. unfold cmat; simpl. ring.
      + f_equal; apply map_ext; intros e; rewrite fst_csum; apply sum_ext; intros i Hi; rewrite fst_csum;
          apply sum_ext; intros j Hj. rewrite fst_if, !eqb_oo, !eqb_oe, ?andb_false_r, ?andb_false_l. unfold cmat; simpl. ring.
  Qed.
End P.

(** the interleaved real system and the complex one *)
Lemma block_iff N (r x : vec) (J : mat R) (A : nat -> nat -> cpx) (g z : nat -> cpx) :
  (forall a, (a < N)%nat -> r (2 * a)%nat = fst (g a) /\ r (2 * a + 1)%nat = snd (g a)) ->
  (forall a b, (a < N)%nat -> (b < N)%nat ->
     ent J (2 * a) (2 * b) = fst (A a b) /\ ent J (2 * a) (2 * b + 1) = - snd (A a b) /\
     ent J (2 * a + 1) (2 * b) = snd (A a b) /\ ent J (2 * a + 1) (2 * b + 1) = fst (A a b)) ->
  (forall a, (a < N)%nat -> z a = (x (2 * a)%nat, x (2 * a + 1)%nat)) ->
  (real_solves (2 * N) J (fun q => -1 * r q) x <-> solves N A g z).
Proof.
  intros Hr HJ Hz.
  assert (Rows : forall a, (a < N)%nat ->
    sum (2 * N) (fun j => ent J (2 * a) j * x j) = fst (csum N (fun b => cmul (A a b) (z b))) /\
    sum (2 * N) (fun j => ent J (2 * a + 1) j * x j) = snd (csum N (fun b => cmul (A a b) (z b)))).
  { intros a Ha. rewrite fst_csum, snd_csum, Nat.mul_comm, !sum_mul.
    split; apply sum_ext; intros b Hb; rewrite (Hz b Hb); destruct (HJ a b Ha Hb) as (E1 & E2 & E3 & E4);
      cbn [sum]; rewrite Nat.add_0_r, (Nat.mul_comm b 2), ?E1, ?E2, ?E3, ?E4; simpl; ring. }
  split.
  - intros H a Ha. destruct (Rows a Ha) as (R1 & R2). destruct (Hr a Ha) as (G1 & G2).
    assert (H1 := H (2 * a)%nat ltac:(lia)). assert (H2 := H (2 * a + 1)%nat ltac:(lia)). cbv beta in H1, H2.
    unfold cadd, c0. rewrite <- R1, <- R2, <- G1, <- G2, H1, H2. f_equal; ring.
  - intros H i Hi.
    assert (E : exists a, (a < N)%nat /\ (i = 2 * a \/ i = 2 * a + 1)%nat).
    { exists (i / 2)%nat. assert (X := Nat.div_mod i 2 ltac:(lia)). assert (Y := Nat.mod_upper_bound i 2 ltac:(lia)).
      split; [apply Nat.div_lt_upper_bound; lia|lia]. }
    destruct E as (a & Ha & E). destruct (Rows a Ha) as (R1 & R2). destruct (Hr a Ha) as (G1 & G2).
    assert (S := H a Ha). unfold cadd, c0 in S. injection S as S1 S2.
    destruct E as [-> | ->]; [rewrite R1, G1|rewrite R2, G2]; lra.
Qed.
