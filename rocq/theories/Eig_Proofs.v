From Coq Require Import Reals Lra.
From Coquelicot Require Import Coquelicot.
From Coq Require Import List Arith Bool Lia.
From Verif Require Import Base BaseLemmas RBool Sens_Model Sens_Spec Sens_Proofs Sens_Proofs2 Eig_Model Eig_Spec.
Import ListNotations.
Open Scope R_scope.

Lemma scatter_gen free y : NoDup free -> forall k, (k <= length free)%nat ->
  (forall j, (j < k)%nat -> fold_left (fun v j => upd v (nth j free O) (y j)) (seq 0 k) zero (nth j free O) = y j) /\
  (forall i, (forall j, (j < k)%nat -> nth j free O <> i) ->
     fold_left (fun v j => upd v (nth j free O) (y j)) (seq 0 k) zero i = 0).
Proof.
  intros ND. induction k as [|k IH]; intros Hk.
  - split; [intros; lia|]. reflexivity.
  - rewrite seq_S. rewrite fold_left_app. cbn [fold_left plus].
    destruct (IH ltac:(lia)) as [I1 I2]. split.
    + intros j Hj. destruct (Nat.eq_dec j k) as [->|NE].
      * apply upd_same.
      * rewrite upd_other; [apply I1; lia|]. intros E. apply NE.
        apply (proj1 (NoDup_nth free O) ND); auto; lia.
    + intros i Hi. rewrite upd_other; [apply I2; intros; apply Hi; lia|].
      intros E. apply (Hi k); auto.
Qed.
Lemma scatter_at free y j : NoDup free -> (j < length free)%nat -> scatter free y (nth j free O) = y j.
Proof. intros ND Hj. apply (proj1 (scatter_gen free y ND (length free) (le_n _)) j Hj). Qed.
Lemma scatter_off free y i : NoDup free -> ~ In i free -> scatter free y i = 0.
Proof.
  intros ND Hi. apply (proj2 (scatter_gen free y ND (length free) (le_n _))).
  intros j Hj E. apply Hi. rewrite <- E. now apply nth_In.
Qed.
Lemma nodup_sum m free (h : nat -> R) : NoDup free -> (forall i, In i free -> (i < m)%nat) ->
  (forall i, (i < m)%nat -> ~ In i free -> h i = 0) ->
  sum m h = sum (length free) (fun j => h (nth j free O)).
Proof.
  revert h. induction free as [|a l IH]; intros h ND B Z.
  - cbn. apply sum_0. intros; apply Z; auto.
  - inversion ND as [|? ? NI ND']; subst.
    rewrite (sum_ext m h (fun i => (if (i =? a)%nat then h a else 0) + (if (i =? a)%nat then 0 else h i)))
      by (intros k _; destruct (Nat.eqb_spec k a); subst; ring).
    rewrite sum_plus. rewrite (sum_single m a).
    + rewrite Nat.eqb_refl. rewrite IH; auto.
      * replace (length (a :: l)) with (1 + length l)%nat by reflexivity.
        rewrite sum_add. cbn [sum]. rewrite Rplus_0_l. f_equal. apply sum_ext. intros k Hk. cbn.
        destruct (Nat.eqb_spec (nth k l 0%nat) a) as [E|]; auto.
        exfalso. apply NI. rewrite <- E. now apply nth_In.
      * intros; apply B; now right.
      * intros i Hi NI'. destruct (Nat.eqb_spec i a); auto. apply Z; auto. intros [E|E]; auto.
    + apply B. now left.
    + intros k _ Hk. apply Nat.eqb_neq in Hk. now rewrite Hk.
Qed.
Lemma sub_row m free M y i : NoDup free -> (forall k, In k free -> (k < m)%nat) ->
  sum m (fun j => M (nth i free O) j * scatter free y j) =
  sum (length free) (fun j => sub free M i j * y j).
Proof.
  intros ND B. rewrite (nodup_sum m free); auto.
  - apply sum_ext. intros j Hj. unfold sub. now rewrite scatter_at.
  - intros k _ Hk. rewrite scatter_off by auto. ring.
Qed.

Lemma dot_quad m M x : dot m (mat_vec m M x) x = quad_form m M x.
Proof.
  unfold dot, mat_vec, quad_form. apply sum_ext. intros i _. rewrite <- sum_scal_r. apply sum_ext; intros; ring.
Qed.
Lemma dot_quad' m M x : dot m x (mat_vec m M x) = quad_form m M x.
Proof. rewrite dot_comm. apply dot_quad. Qed.
Lemma quad_scale m M x c : quad_form m M (fun k => x k * c) = c * c * quad_form m M x.
Proof.
  unfold quad_form. rewrite <- sum_scal_l. apply sum_ext. intros i _. rewrite <- sum_scal_l. apply sum_ext; intros; ring.
Qed.
Lemma eigenpair_scale m A B fr lam x c : eigenpair m A B fr lam x -> eigenpair m A B fr lam (fun k => x k * c).
Proof.
  intros [Z E]. split.
  - intros i Hi Hf. rewrite Z by auto. ring.
  - intros i Hi Hf.
    rewrite (sum_ext m _ (fun j => A i j * x j * c)) by (intros; ring). rewrite sum_scal_r, E by auto.
    rewrite (sum_ext m (fun j => B i j * (x j * c)) (fun j => B i j * x j * c)) by (intros; ring). rewrite sum_scal_r. ring.
Qed.
Lemma inv_sqrt q : 0 < q -> 1 / sqrt q * (1 / sqrt q) * q = 1.
Proof.
  intros Q. assert (S : sqrt q <> 0) by (apply Rgt_not_eq, sqrt_lt_R0, Q).
  rewrite <- (sqrt_sqrt q) at 3 by lra. field. exact S.
Qed.

(** the state after eigenproblem_solve *)
Lemma solve_state slepc p s s' : kind s = GHEP -> eigenproblem_solve slepc p s = Ok s' ->
  kind s' = GHEP /\ exchange s' = exchange s /\ condensed s' = condensed s /\ n_req s' = n_req s /\
  matA s' = assembleA p /\ matB s' = Some (assembleB p) /\ n_conv s' = length (pairs s') /\
  (forall l, condensed s = Some l -> length l <> 0%nat) /\
  pairs s' = (let tr M := match condensed s with None => M | Some l => sub l M end in
              let m := match condensed s with None => n (dofs p) | Some l => length l end in
              if exchange s then slepc (tr (assembleB p)) (Some (tr (assembleA p))) m (n_req s)
              else slepc (tr (assembleA p)) (Some (tr (assembleB p))) m (n_req s)).
Proof.
  intros K H. unfold eigenproblem_solve in H. destruct (n_req s =? 0)%nat; [discriminate|]. cbn [negb assert_] in H.
  unfold eigenproblem_assemble in H. destruct (matB s) as [B|]; [|discriminate]. cbn [bind] in H.
  unfold with_mats in H. cbn [condensed kind matB exchange matA n_req] in H. rewrite K in H. cbn [generalized] in H.
  destruct (condensed s) as [l|] eqn:C.
  - destruct (length l =? 0)%nat eqn:L; [discriminate|]. cbn [negb assert_] in H.
    destruct (exchange s) eqn:X; injection H as <-; cbn; rewrite ?K, ?C, ?X;
    (repeat split; auto; intros l' El; injection El as <-; now apply Nat.eqb_neq in L).
  - destruct (exchange s) eqn:X; injection H as <-; cbn; rewrite ?K, ?C, ?X; repeat split; auto; discriminate.
Qed.

(** the vector before scaling *)
Lemma pair_raw slepc p s s' mu y : kind s = GHEP -> exact_solver slepc -> condensed_ok p s ->
  eigenproblem_solve slepc p s = Ok s' -> In (mu, y) (pairs s') ->
  snd mu = 0 /\ forall v, (if exchange s then cinv mu else Ok mu) = Ok v ->
    snd v = 0 /\
    eigenpair (n (dofs p)) (assembleA p) (assembleB p) (free_dofs s) (fst v)
      (match condensed s with None => y | Some l => scatter l y end).
Proof.
  intros K EX CO H I. destruct (solve_state slepc p s s' K H) as (_ & _ & _ & _ & _ & _ & _ & _ & PP).
  rewrite PP in I. cbv zeta in I.
  assert (G : forall M1 M2 m', In (mu, y) (slepc M1 (Some M2) m' (n_req s)) ->
     snd mu = 0 /\ forall i, (i < m')%nat -> sum m' (fun j => M1 i j * y j) = fst mu * sum m' (fun j => M2 i j * y j)).
  { intros M1 M2 m' Hin. exact (EX M1 M2 m' (n_req s) mu y Hin). }
  assert (CI : forall v, snd mu = 0 -> cinv mu = Ok v -> snd v = 0 /\ fst mu <> 0 /\ fst v = / fst mu).
  { intros v Z E. unfold cinv in E. rewrite Z in E.
    destruct (reqb (fst mu * fst mu + 0 * 0) 0) eqn:Q; [discriminate|]. apply reqb_false in Q.
    assert (fst mu <> 0) by (intros E0; apply Q; rewrite E0; ring).
    injection E as <-. cbn. split; [|split; auto].
    - unfold Rdiv. ring.
    - field. auto. }
  unfold free_dofs. destruct (condensed s) as [l|] eqn:C.
  - destruct (CO l C) as [ND BD].
    destruct (exchange s); destruct (G _ _ _ I) as [Z E]; (split; [exact Z|]); intros v Hv.
    + destruct (CI v Z Hv) as (V0 & MN & V1). split; [exact V0|]. split.
      * intros i Hi Hn. now apply scatter_off.
      * intros i Hi Hf. destruct (In_nth l i O Hf) as (k & Hk & <-).
        rewrite !sub_row by auto. rewrite (E k Hk), V1. field. exact MN.
    + injection Hv as <-. split; [exact Z|]. split.
      * intros i Hi Hn. now apply scatter_off.
      * intros i Hi Hf. destruct (In_nth l i O Hf) as (k & Hk & <-).
        rewrite !sub_row by auto. now apply E.
  - destruct (exchange s); destruct (G _ _ _ I) as [Z E]; (split; [exact Z|]); intros v Hv.
    + destruct (CI v Z Hv) as (V0 & MN & V1). split; [exact V0|]. split; [tauto|].
      intros i Hi _. rewrite (E i Hi), V1. field. exact MN.
    + injection Hv as <-. split; [exact Z|]. split; [tauto|]. intros i Hi _. now apply E.
Qed.

(** assembled matrices, entry by entry *)
Lemma asm_eq (p : prob) (M : eelem -> matrix) i j :
  fold_left (fun g e => add_matrix (dofs p) (ee_dofs e) (M e) g) (els p) mzero i j =
  total (fun e => mctr (dofs p) (ee_dofs e) (M e) i j) (els p).
Proof.
  rewrite (fold_mat (fun g e => add_matrix (dofs p) (ee_dofs e) (M e) g)
     (fun e i j => mctr (dofs p) (ee_dofs e) (M e) i j)).
  - unfold mzero. ring.
  - reflexivity.
Qed.
Lemma asmA_eq p i j : assembleA p i j =
  total (fun e => mctr (dofs p) (ee_dofs e) (ee_A e (th p) (local_base (base p) (ee_dofs e))) i j) (els p).
Proof. apply (asm_eq p (fun e => ee_A e (th p) (local_base (base p) (ee_dofs e)))). Qed.
Lemma asmB_eq p i j : assembleB p i j =
  total (fun e => mctr (dofs p) (ee_dofs e) (ee_B e (th p) (local_base (base p) (ee_dofs e))) i j) (els p).
Proof. apply (asm_eq p (fun e => ee_B e (th p) (local_base (base p) (ee_dofs e)))). Qed.
Lemma sens_eq p d f i j : sens_matrix p d f i j =
  total (fun e => mctr (dofs p) (ee_dofs e)
     (d e (th p) f (has_base p) (local_base (base p) (ee_dofs e)) (sens_local p (ee_dofs e))) i j) (els p).
Proof. apply (asm_eq p (fun e => d e (th p) f (has_base p) (local_base (base p) (ee_dofs e)) (sens_local p (ee_dofs e)))). Qed.
Lemma mctr_ext S ds M M' i j :
  (forall k l, (k < length ds)%nat -> (l < length ds)%nat -> M k l = M' k l) ->
  mctr S ds M i j = mctr S ds M' i j.
Proof.
  intros H. unfold mctr. destruct (constrained S i); auto.
  apply sum_ext; intros k Hk. apply sum_ext; intros l Hl. now rewrite H.
Qed.
Lemma mctr_sym S ds M i j : constrained S i = false -> constrained S j = false ->
  (forall k l, (k < length ds)%nat -> (l < length ds)%nat -> M k l = M l k) ->
  mctr S ds M i j = mctr S ds M j i.
Proof.
  intros Ci Cj H. unfold mctr. rewrite Ci, Cj. rewrite sum_swap.
  apply sum_ext; intros k Hk. apply sum_ext; intros l Hl. rewrite (H l k) by auto. ring.
Qed.
Lemma mctr_der S ds (M : R -> matrix) (D : matrix) i j (x : R) : constrained S i = false ->
  (forall k l, (k < length ds)%nat -> (l < length ds)%nat -> is_derive (fun t => M t k l) x (D k l)) ->
  is_derive (fun t => mctr S ds (M t) i j) x (mctr S ds D i j).
Proof.
  intros Ci H. unfold mctr. rewrite Ci.
  apply (der_sum _ (fun k t => sum (length ds) (fun l => coef S (dof ds k) i * M t k l * coef S (dof ds l) j))).
  intros k Hk. apply (der_sum _ (fun l t => coef S (dof ds k) i * M t k l * coef S (dof ds l) j)). intros l Hl.
  apply (der_ext (fun t => coef S (dof ds k) i * coef S (dof ds l) j * M t k l) _ x
    (coef S (dof ds k) i * coef S (dof ds l) j * D k l)); [intros; ring|ring|].
  apply der_scal. exact (H k l Hk Hl).
Qed.
Lemma asmA_der p f b i j : constrained (dofs p) i = false -> matrices_differentiable p f b ->
  is_derive (fun t => assembleA (along p f b t) i j) (th p f) (sens_matrix p ee_dA f i j).
Proof.
  intros Ci H. rewrite sens_eq.
  apply (der_ext (fun t => total (fun e => mctr (dofs p) (ee_dofs e) (ee_A e (at_ (th p) f t)
       (local_base (base (along p f b t)) (ee_dofs e))) i j) (els p)) _ _
     (total (fun e => mctr (dofs p) (ee_dofs e)
     (ee_dA e (th p) f (has_base p) (local_base (base p) (ee_dofs e)) (sens_local p (ee_dofs e))) i j) (els p)));
    [intros t; exact (asmA_eq (along p f b t) i j)|reflexivity|].
  apply (der_total (els p) (fun e t => mctr (dofs p) (ee_dofs e) (ee_A e (at_ (th p) f t)
       (local_base (base (along p f b t)) (ee_dofs e))) i j)).
  intros e He. apply mctr_der; auto. intros k l Hk Hl. apply (H e k l He Hk Hl).
Qed.
Lemma asmB_der p f b i j : constrained (dofs p) i = false -> matrices_differentiable p f b ->
  is_derive (fun t => assembleB (along p f b t) i j) (th p f) (sens_matrix p ee_dB f i j).
Proof.
  intros Ci H. rewrite sens_eq.
  apply (der_ext (fun t => total (fun e => mctr (dofs p) (ee_dofs e) (ee_B e (at_ (th p) f t)
       (local_base (base (along p f b t)) (ee_dofs e))) i j) (els p)) _ _
     (total (fun e => mctr (dofs p) (ee_dofs e)
     (ee_dB e (th p) f (has_base p) (local_base (base p) (ee_dofs e)) (sens_local p (ee_dofs e))) i j) (els p)));
    [intros t; exact (asmB_eq (along p f b t) i j)|reflexivity|].
  apply (der_total (els p) (fun e t => mctr (dofs p) (ee_dofs e) (ee_B e (at_ (th p) f t)
       (local_base (base (along p f b t)) (ee_dofs e))) i j)).
  intros e He. apply mctr_der; auto. intros k l Hk Hl. apply (H e k l He Hk Hl).
Qed.
Lemma asm_at p f b i j : path_through p f b ->
  assembleA (along p f b (th p f)) i j = assembleA p i j /\ assembleB (along p f b (th p f)) i j = assembleB p i j.
Proof.
  intros H. rewrite !asmA_eq, !asmB_eq. split; apply total_ext; intros e He; apply mctr_ext; intros k l _ _.
  - apply (H e k l He).
  - apply (H e k l He).
Qed.
Lemma asm_sym p i j : symmetric_elements p -> constrained (dofs p) i = false -> constrained (dofs p) j = false ->
  assembleA p i j = assembleA p j i /\ assembleB p i j = assembleB p j i.
Proof.
  intros H Ci Cj. rewrite !asmA_eq, !asmB_eq.
  split; apply total_ext; intros e He; apply mctr_sym; auto; intros k l Hk Hl; apply (H e k l He Hk Hl).
Qed.

(** first-order perturbation of an eigenvalue; [fr] is the set of free dofs *)
Section Perturb.
Variables (m : nat) (A B : R -> matrix) (dA dB : matrix) (fr : nat -> Prop) (frb : nat -> bool).
Variables (lam : R -> R) (X : R -> vec) (dlam : R) (dX : vec) (t0 : R).
Hypothesis FR : forall i, frb i = true <-> fr i.
Hypothesis HA : forall i j, (i < m)%nat -> (j < m)%nat -> fr i -> is_derive (fun t => A t i j) t0 (dA i j).
Hypothesis HB : forall i j, (i < m)%nat -> (j < m)%nat -> fr i -> is_derive (fun t => B t i j) t0 (dB i j).
Hypothesis SA : forall i j, (i < m)%nat -> (j < m)%nat -> fr i -> fr j -> A t0 i j = A t0 j i.
Hypothesis SB : forall i j, (i < m)%nat -> (j < m)%nat -> fr i -> fr j -> B t0 i j = B t0 j i.
Hypothesis HL : is_derive lam t0 dlam.
Hypothesis HX : forall i, (i < m)%nat -> is_derive (fun t => X t i) t0 (dX i).
Hypothesis EP : locally t0 (fun t => eigenpair m (A t) (B t) fr (lam t) (X t)).

Lemma mul_der (f g : R -> R) (x a b : R) : is_derive f x a -> is_derive g x b ->
  is_derive (fun s => f s * g s) x (a * g x + f x * b).
Proof. intros F G. apply (is_derive_mult f g x a b F G). intros; apply Rmult_comm. Qed.
Lemma dX_off i : (i < m)%nat -> ~ fr i -> dX i = 0.
Proof.
  intros Hi Hf. eapply der_unique; [exact (HX i Hi)|]. apply (der_near _ (fun _ => 0)).
  - eapply filter_imp; [|exact EP]. intros t [Z _]. cbv beta. now apply Z.
  - apply @is_derive_const.
Qed.
Lemma row_der (M : R -> matrix) (dM : matrix) i :
  (forall j, (j < m)%nat -> is_derive (fun t => M t i j) t0 (dM i j)) ->
  is_derive (fun t => sum m (fun j => M t i j * X t j)) t0
    (sum m (fun j => dM i j * X t0 j) + sum m (fun j => M t0 i j * dX j)).
Proof.
  intros H. rewrite <- sum_plus. apply (der_sum m (fun j t => M t i j * X t j)). intros j Hj.
  apply (mul_der (fun t => M t i j) (fun t => X t j)); auto.
Qed.
Lemma row_zero i : (i < m)%nat -> fr i ->
  sum m (fun j => dA i j * X t0 j) + sum m (fun j => A t0 i j * dX j)
  - (dlam * sum m (fun j => B t0 i j * X t0 j)
     + lam t0 * (sum m (fun j => dB i j * X t0 j) + sum m (fun j => B t0 i j * dX j))) = 0.
Proof.
  intros Hi Hf.
  assert (D : is_derive (fun t => sum m (fun j => A t i j * X t j) - lam t * sum m (fun j => B t i j * X t j)) t0
    (sum m (fun j => dA i j * X t0 j) + sum m (fun j => A t0 i j * dX j)
     - (dlam * sum m (fun j => B t0 i j * X t0 j)
     + lam t0 * (sum m (fun j => dB i j * X t0 j) + sum m (fun j => B t0 i j * dX j))))).
  { apply der_minus.
    - apply row_der. intros; now apply HA.
    - apply (mul_der lam (fun t => sum m (fun j => B t i j * X t j))); [exact HL|].
      apply row_der. intros; now apply HB. }
  eapply der_unique; [exact D|]. apply (der_near _ (fun _ => 0)).
  - eapply filter_imp; [|exact EP]. intros t [_ E]. cbv beta. rewrite (E i Hi Hf). ring.
  - apply @is_derive_const.
Qed.
Lemma at_t0 : eigenpair m (A t0) (B t0) fr (lam t0) (X t0).
Proof. exact (locally_singleton _ _ EP). Qed.
Lemma perturb : dlam * quad_form m (B t0) (X t0) = quad_form m dA (X t0) - lam t0 * quad_form m dB (X t0).
Proof.
  destruct at_t0 as [Z0 E0].
  (* x . (A x' - lam B x') = 0 by symmetry *)
  assert (SY : sum m (fun i => X t0 i * sum m (fun j => A t0 i j * dX j))
             - lam t0 * sum m (fun i => X t0 i * sum m (fun j => B t0 i j * dX j)) = 0).
  { assert (T : forall M : matrix, (forall i j, (i < m)%nat -> (j < m)%nat -> fr i -> fr j -> M i j = M j i) ->
      sum m (fun i => X t0 i * sum m (fun j => M i j * dX j)) =
      sum m (fun j => dX j * (if frb j then sum m (fun i => M j i * X t0 i) else 0))).
    { intros M SM.
      transitivity (sum m (fun i => sum m (fun j => X t0 i * M i j * dX j))).
      { apply sum_ext; intros i _. rewrite <- sum_scal_l. apply sum_ext; intros; ring. }
      rewrite sum_swap. apply sum_ext. intros j Hj. destruct (frb j) eqn:Fj.
      - rewrite <- sum_scal_l. apply sum_ext. intros i Hi. destruct (frb i) eqn:Fi.
        + rewrite (SM j i); auto; [ring|now apply FR|now apply FR].
        + rewrite (Z0 i Hi); [ring|]. intros F. apply FR in F. congruence.
      - rewrite (dX_off j Hj) by (intros F; apply FR in F; congruence).
        rewrite Rmult_0_l. apply sum_0. intros; ring. }
    rewrite (T (A t0) SA), (T (B t0) SB). rewrite <- sum_scal_l, <- sum_minus. apply sum_0.
    intros j Hj. destruct (frb j) eqn:Fj; [|ring]. rewrite (E0 j Hj) by now apply FR. ring. }
  assert (RZ : sum m (fun i => X t0 i * (sum m (fun j => dA i j * X t0 j) + sum m (fun j => A t0 i j * dX j)
  - (dlam * sum m (fun j => B t0 i j * X t0 j)
     + lam t0 * (sum m (fun j => dB i j * X t0 j) + sum m (fun j => B t0 i j * dX j))))) = 0).
  { apply sum_0. intros i Hi. destruct (frb i) eqn:Fi.
    - rewrite row_zero; auto; [ring|now apply FR].
    - rewrite (Z0 i Hi); [ring|]. intros F. apply FR in F. congruence. }
  assert (QF : forall M, quad_form m M (X t0) = sum m (fun i => X t0 i * sum m (fun j => M i j * X t0 j))).
  { intros M. unfold quad_form. apply sum_ext; intros i _. rewrite <- sum_scal_l. apply sum_ext; intros; ring. }
  rewrite !QF.
  rewrite (sum_ext m _ (fun i => (X t0 i * sum m (fun j => dA i j * X t0 j) + X t0 i * sum m (fun j => A t0 i j * dX j))
     - (dlam * (X t0 i * sum m (fun j => B t0 i j * X t0 j))
        + lam t0 * (X t0 i * sum m (fun j => dB i j * X t0 j) + X t0 i * sum m (fun j => B t0 i j * dX j))))) in RZ
    by (intros; ring).
  rewrite sum_minus, !sum_plus, !sum_scal_l, sum_plus in RZ. lra.
Qed.
End Perturb.

(** computed sensitivities *)
Lemma right_nth p s l r : right_vectors p s l = Ok r -> length r = length l /\
  forall k i, nth_error l k = Some i -> exists v x d, get_eigenpair p s i = Ok (v, x) /\
    nth_error r k = Some (d, fst v, x) /\
    (forall B, kind s = GHEP -> matB s = Some B -> d = quad_form (n (dofs p)) B x).
Proof.
  revert r. induction l as [|a t IH]; intros r H; cbn [right_vectors] in H.
  - injection H as <-. split; [reflexivity|]. intros [|k] i; discriminate.
  - destruct (get_eigenpair p s a) as [[v x]|] eqn:E; [|discriminate]. cbn [bind snd fst] in H.
    match type of H with bind ?m _ = _ => destruct m as [d|] eqn:D; [|discriminate] end. cbn [bind] in H.
    destruct (right_vectors p s t) as [r'|] eqn:R; [|discriminate]. cbn [bind] in H. injection H as <-.
    destruct (IH r' eq_refl) as [L Q]. split; [cbn; lia|]. intros [|k] i Hk.
    + injection Hk as <-. exists v, x, d. split; [auto|]. split; [reflexivity|].
      intros B K MB. rewrite K, MB in D. injection D as <-. apply dot_quad'.
    + exact (Q k i Hk).
Qed.
Lemma all_sens_nth p s l q : all_sens p s l = Ok q -> length q = length l /\
  forall k r, nth_error l k = Some r -> exists v, nth_error q k = Some v /\ eig_sens p s r = Ok v.
Proof.
  revert q. induction l as [|a t IH]; intros q H; cbn [all_sens] in H.
  - injection H as <-. split; [reflexivity|]. intros [|k] r; discriminate.
  - destruct (eig_sens p s a) as [v|] eqn:E; [|discriminate]. cbn [bind] in H.
    destruct (all_sens p s t) as [q'|] eqn:R; [|discriminate]. cbn [bind] in H. injection H as <-.
    destruct (IH q' eq_refl) as [L Q]. split; [cbn; lia|]. intros [|k] r Hk.
    + injection Hk as <-. exists v. auto.
    + exact (Q k r Hk).
Qed.
Lemma sens_solve_nth p s f ind q s' B : kind s = GHEP -> matB s = Some B ->
  eigenproblem_sensitivity_solve p s f ind = Ok (q, s') ->
  exists l, indices_for s ind = Ok l /\ length q = length l /\
    matA s' = sens_matrix p ee_dA f /\ matB s' = Some (sens_matrix p ee_dB f) /\
    (has_base p = true -> base_sens p <> None) /\
    forall k i, nth_error l k = Some i -> exists v x, get_eigenpair p s i = Ok (v, x) /\
      nth_error q k = Some ((quad_form (n (dofs p)) (sens_matrix p ee_dA f) x
          - fst v * quad_form (n (dofs p)) (sens_matrix p ee_dB f) x) / quad_form (n (dofs p)) B x).
Proof.
  intros K MB H. unfold eigenproblem_sensitivity_solve in H.
  destruct (n_conv s =? 0)%nat; [discriminate|]. cbn [negb assert_] in H.
  destruct (indices_for s ind) as [l|] eqn:I; [|discriminate]. cbn [bind] in H.
  destruct (right_vectors p s l) as [r|] eqn:R; [|discriminate]. cbn [bind] in H.
  destruct (eigenproblem_sensitivity_assemble p f s) as [s1|] eqn:A; [|discriminate]. cbn [bind] in H.
  destruct (all_sens p s1 r) as [q'|] eqn:Q; [|discriminate]. cbn [bind] in H. injection H as <- <-.
  unfold eigenproblem_sensitivity_assemble in A. rewrite MB in A.
  destruct (has_base p && match base_sens p with None => true | Some _ => false end) eqn:HB; [discriminate|].
  injection A as <-. exists l. split; [reflexivity|].
  destruct (right_nth p s l r R) as [L1 N1]. destruct (all_sens_nth p _ r q' Q) as [L2 N2].
  split; [lia|]. split; [reflexivity|]. split; [reflexivity|].
  split.
  { intros HB1 HB2. rewrite HB1, HB2 in HB. discriminate. }
  intros k i Hk. destruct (N1 k i Hk) as (v & x & d & E & Nr & D). exists v, x. split; [exact E|].
  destruct (N2 k _ Nr) as (v' & Nq & ES). rewrite Nq. f_equal.
  unfold eig_sens in ES. cbn [kind with_mats matA matB] in ES. rewrite K in ES. injection ES as <-.
  rewrite !dot_quad', (D B K MB). reflexivity.
Qed.
