(** Lemmas for C29 (sort) and C30, C31 (sensitivity). *)
From Coq Require Import Reals List Arith Bool Lra Lia Permutation.
From Verif Require Import Base BaseLemmas Flut_Model Flut_Spec Flut_Proofs.
Import ListNotations.
Open Scope R_scope.

(** ** sort *)
Definition tr (i j k : nat) : nat := if Nat.eqb k i then j else if Nat.eqb k j then i else k.
Section S.
  Variables (A S : Type) (score : A -> A -> S) (gt : S -> S -> bool) (zero : S).
  Lemma swap_nth (l : list A) i j d : (i < length l)%nat -> (j < length l)%nat ->
    length (swap A l i j) = length l /\ forall k, (k < length l)%nat -> nth k (swap A l i j) d = nth (tr i j k) l d.
  Proof.
    intros Hi Hj. unfold swap.
    destruct (nth_error l i) as [a|] eqn:Ei; [|apply nth_error_None in Ei; lia].
    destruct (nth_error l j) as [b|] eqn:Ej; [|apply nth_error_None in Ej; lia].
    split; [rewrite map_length, seq_length; auto|]. intros k Hk.
    rewrite (nth_indep _ d ((fun k => if Nat.eqb k i then b else if Nat.eqb k j then a else nth k l a) 0%nat)) by (rewrite map_length, seq_length; auto).
    rewrite (map_nth (fun k => if Nat.eqb k i then b else if Nat.eqb k j then a else nth k l a)). rewrite seq_nth by auto. simpl.
    unfold tr. destruct (Nat.eqb k i); [symmetry; apply nth_error_nth; auto|].
    destruct (Nat.eqb k j); [symmetry; apply nth_error_nth; auto|]. apply nth_indep; auto.
  Qed.
  Lemma tr_inv i j k : tr i j (tr i j k) = k.
  Proof.
    unfold tr. destruct (Nat.eqb_spec k i) as [->|]; [|destruct (Nat.eqb_spec k j) as [->|]];
    repeat (match goal with |- context [Nat.eqb ?a ?b] => destruct (Nat.eqb_spec a b) end); lia.
  Qed.
  Lemma swap_perm (l : list A) i j : Permutation l (swap A l i j).
  Proof.
    destruct (lt_dec i (length l)) as [Hi|Hi]; [destruct (lt_dec j (length l)) as [Hj|Hj]|].
    - destruct l as [|d l0] eqn:El; [simpl in Hi; lia|]. rewrite <- El in *. clear El l0.
      destruct (swap_nth l i j d Hi Hj) as (L & H).
      apply (Permutation_nth l (swap A l i j) d). split; [auto|]. exists (tr i j). repeat split.
      + intros k Hk. unfold tr. repeat (match goal with |- context [Nat.eqb ?a ?b] => destruct (Nat.eqb_spec a b) end); lia.
      + intros a b Ha Hb E. rewrite <- (tr_inv i j a), <- (tr_inv i j b). congruence.
      + auto.
    - unfold swap. destruct (nth_error l i); auto. destruct (nth_error l j) eqn:E; auto.
      exfalso. apply Hj. apply nth_error_Some. congruence.
    - unfold swap. destruct (nth_error l i) eqn:E; auto. exfalso. apply Hi. apply nth_error_Some. congruence.
  Qed.
  Lemma best_of_range p l : forall j mv mj, best_of A S score gt p l j mv mj = mj \/ (j <= best_of A S score gt p l j mv mj < j + length l)%nat.
  Proof.
    induction l as [|r l IH]; intros j mv mj; simpl; auto.
    destruct (gt (score p r) mv).
    - destruct (IH (Datatypes.S j) (score p r) j) as [->|]; right; lia.
    - destruct (IH (Datatypes.S j) mv mj) as [->|]; auto. right; lia.
  Qed.
  Definition sort_body (prev : list A) (n : nat) (i : nat) (l : list A) : outcome (list A) :=
    match nth_error prev i with
    | None => Fault AssertFailed
    | Some p => let k := best_of A S score gt p (skipn i l) i zero n in Ok (if Nat.eqb i k then l else swap A l i k)
    end.
  Lemma sort_loop_perm prev n k : forall l l', loop k (sort_body prev n) l = Ok l' -> Permutation l l'.
  Proof.
    induction k as [|k IH]; intros l l'; cbn [loop]; [intros E; inversion E; auto|].
    destruct (loop k (sort_body prev n) l) as [l1|] eqn:E1; cbn [bind]; [|discriminate].
    unfold sort_body. destruct (nth_error prev k) as [p|]; [|discriminate]. cbv zeta. intros E. inversion E.
    rewrite (IH _ _ E1). destruct (Nat.eqb _ _); auto. apply swap_perm.
  Qed.
  Lemma sort_unfold prev l : sort A S score gt zero prev l =
    if Nat.eqb (length l) (length prev) then match length l with O => Fault AssertFailed | Datatypes.S n => loop n (sort_body prev n) l end else Fault AssertFailed.
  Proof. reflexivity. Qed.
  Lemma sort_perm prev l l' : sort A S score gt zero prev l = Ok l' -> Permutation l l'.
  Proof.
    rewrite sort_unfold. destruct (Nat.eqb _ _); [|discriminate]. destruct (length l); [discriminate|]. apply sort_loop_perm.
  Qed.
  Lemma sort_total prev l : length l = length prev -> l <> [] -> exists l', sort A S score gt zero prev l = Ok l'.
  Proof.
    intros E Hne. rewrite sort_unfold, E, Nat.eqb_refl. destruct (length prev) as [|n] eqn:Ep; [destruct l; simpl in *; congruence|].
    assert (T : forall k, (k <= n)%nat -> exists r, loop k (sort_body prev n) l = Ok r).
    { induction k as [|k IH]; intros Hk; simpl; [eauto|]. destruct (IH ltac:(lia)) as (r & ->). cbn [bind]. unfold sort_body.
      destruct (nth_error prev k) eqn:En; [simpl; eauto|]. apply nth_error_None in En. lia. }
    apply T. lia.
  Qed.
End S.

Section SR.
  Variables (A : Type) (score : A -> A -> R).
  Hypothesis Hpos : forall p r, 0 <= score p r.
  Let gtR (a b : R) : bool := rlt b a.
  Lemma best_max p l d : forall j mv mj, 0 <= mv ->
    let k := best_of A R score gtR p l j mv mj in
    (k = mj /\ forall q, (q < length l)%nat -> score p (nth q l d) <= mv) \/
    ((j <= k < j + length l)%nat /\ mv < score p (nth (k - j) l d) /\ forall q, (q < length l)%nat -> score p (nth q l d) <= score p (nth (k - j) l d)).
  Proof.
    induction l as [|r l IH]; intros j mv mj Hmv; simpl.
    - left. split; auto. intros; lia.
    - assert (Hg : (gtR (score p r) mv = true /\ mv < score p r) \/ (gtR (score p r) mv = false /\ ~ mv < score p r))
        by (unfold gtR; destruct (rlt_spec mv (score p r)); auto).
      destruct Hg as [(-> & Hr)|(-> & Hr)].
      + destruct (IH (S j) (score p r) j) as [(E & H)|(Hk & H1 & H2)]; [apply Hpos| |]; right; simpl plus in *.
        * rewrite E. replace (j - j)%nat with 0%nat by lia. split; [lia|]. split; [auto|]. intros [|q] Hq; [lra|apply H; lia].
        * split; [lia|]. match goal with |- context [(?k - j)%nat] => replace (k - j)%nat with (S (k - S j)) by lia end.
          split; [lra|]. intros [|q] Hq; [lra|apply H2; lia].
      + destruct (IH (S j) mv mj Hmv) as [(E & H)|(Hk & H1 & H2)]; simpl plus in *.
        * left. split; auto. intros [|q] Hq; [lra|apply H; lia].
        * right. split; [lia|]. match goal with |- context [(?k - j)%nat] => replace (k - j)%nat with (S (k - S j)) by lia end.
          split; [auto|]. intros [|q] Hq; [lra|apply H2; lia].
  Qed.
  Lemma nth_skipn (l : list A) i q d : nth q (skipn i l) d = nth (i + q) l d.
  Proof. revert l. induction i; intros [|a l]; simpl; auto. destruct q; auto. Qed.

  Definition greedy (d : A) (prev l : list A) (k : nat) : Prop :=
    forall i j, (i < k)%nat -> (i <= j < length l)%nat -> score (nth i prev d) (nth j l d) <= score (nth i prev d) (nth i l d).
  Lemma sort_greedy d prev l l' : sort A R score gtR 0 prev l = Ok l' -> greedy d prev l' (length l').
  Proof.
    rewrite sort_unfold. destruct (Nat.eqb_spec (length l) (length prev)) as [El|]; [|discriminate].
    destruct (length l) as [|n] eqn:En; [discriminate|]. intros E.
    assert (G : forall k l', (k <= n)%nat -> loop k (sort_body A R score gtR 0 prev n) l = Ok l' -> length l' = S n /\ greedy d prev l' k).
    { clear E l'. induction k as [|k IH]; intros l' Hk; cbn [loop].
      - intros E; inversion E; subst. split; auto. intros i j Hi; lia.
      - destruct (loop k _ l) as [l1|] eqn:E1; cbn [bind]; [|discriminate]. destruct (IH l1 ltac:(lia) eq_refl) as (L1 & G1).
        unfold sort_body. destruct (nth_error prev k) as [p|] eqn:Ep; [|discriminate]. cbv zeta.
        assert (Hp : nth k prev d = p) by (apply nth_error_nth; auto).
        assert (B := best_max p (skipn k l1) d k 0 n (Rle_refl 0)). cbv zeta in B.
        set (b := best_of A R score gtR p (skipn k l1) k 0 n) in *. rewrite skipn_length, L1 in B.
        assert (Hb : (k <= b < S n)%nat) by (destruct B as [(-> & _)|(B & _)]; lia).
        assert (Hmax : forall j, (k <= j < S n)%nat -> score p (nth j l1 d) <= score p (nth b l1 d)).
        { intros j Hj. destruct B as [(_ & B)|(_ & _ & B)].
          - specialize (B (j - k)%nat ltac:(lia)). rewrite nth_skipn in B. replace (k + (j - k))%nat with j in B by lia.
            specialize (Hpos p (nth b l1 d)). lra.
          - specialize (B (j - k)%nat ltac:(lia)). rewrite !nth_skipn in B. replace (k + (j - k))%nat with j in B by lia.
            replace (k + (b - k))%nat with b in B by lia. exact B. }
        intros E. inversion E as [E']. destruct (Nat.eqb_spec k b) as [Ekb|Nkb].
        + subst l'. split; auto. intros i j Hi Hj. destruct (Nat.eq_dec i k) as [->|].
          * rewrite Hp. replace (nth k l1 d) with (nth b l1 d) by (f_equal; auto). apply Hmax. lia.
          * apply G1; lia.
        + destruct (swap_nth A l1 k b d ltac:(lia) ltac:(lia)) as (Ls & Hs). split; [congruence|].
          intros i j Hi Hj. rewrite Ls, L1 in Hj. rewrite !Hs by lia. destruct (Nat.eq_dec i k) as [->|].
          * rewrite Hp. replace (tr k b k) with b by (unfold tr; now rewrite Nat.eqb_refl). apply Hmax.
            unfold tr. repeat (match goal with |- context [Nat.eqb ?a ?b] => destruct (Nat.eqb_spec a b) end); lia.
          * replace (tr k b i) with i by (unfold tr; repeat (match goal with |- context [Nat.eqb ?a ?b] => destruct (Nat.eqb_spec a b) end); lia).
            apply G1; [lia|]. unfold tr. repeat (match goal with |- context [Nat.eqb ?a ?b] => destruct (Nat.eqb_spec a b) end); lia. }
    destruct (G n l' (le_n _) E) as (L & Gn). intros i j Hi Hj. destruct (Nat.eq_dec i n) as [->|].
    - replace j with n by lia. lra.
    - apply Gn; lia.
  Qed.
End SR.

(** ** complex arithmetic *)
Definition c0 : cpx := (0, 0).
Definition c1 : cpx := (1, 0).
Definition copp (a : cpx) : cpx := (- fst a, - snd a).
Ltac cring := intros; repeat match goal with a : cpx |- _ => destruct a end; unfold cadd, csub, cmul, copp, conj, cscal, c0, c1; simpl; f_equal; ring.
Lemma cpx_ring : ring_theory c0 c1 cadd cmul csub copp (@eq cpx).
Proof. constructor; cring. Qed.
Add Ring cpx_ring : cpx_ring.
Lemma csum_ext n f h : (forall i, (i < n)%nat -> f i = h i) -> csum n f = csum n h.
Proof. induction n as [|n IH]; simpl; intros H; auto. rewrite IH by auto. now rewrite H by lia. Qed.
Lemma csum_add n f h : csum n (fun i => cadd (f i) (h i)) = cadd (csum n f) (csum n h).
Proof. induction n as [|n IH]; simpl; [symmetry; change (0,0) with c0; ring|]. rewrite IH. ring. Qed.
Lemma csum_sub n f h : csum n (fun i => csub (f i) (h i)) = csub (csum n f) (csum n h).
Proof. induction n as [|n IH]; simpl; [symmetry; change (0,0) with c0; ring|]. rewrite IH. ring. Qed.
Lemma csum_mul_l n a f : csum n (fun i => cmul a (f i)) = cmul a (csum n f).
Proof. induction n as [|n IH]; simpl; [symmetry; change (0,0) with c0; ring|]. rewrite IH. ring. Qed.
Lemma csum_mul_r n a f : csum n (fun i => cmul (f i) a) = cmul (csum n f) a.
Proof. induction n as [|n IH]; simpl; [symmetry; change (0,0) with c0; ring|]. rewrite IH. ring. Qed.
Lemma csum_zero n : csum n (fun _ => c0) = c0.
Proof. induction n as [|n IH]; simpl; auto. rewrite IH. ring. Qed.
Lemma csum_swap n k f : csum n (fun i => csum k (fun j => f i j)) = csum k (fun j => csum n (fun i => f i j)).
Proof.
  induction n as [|n IH]; simpl; [symmetry; apply csum_zero|]. rewrite IH. symmetry. apply csum_add.
Qed.
Lemma cscal_mul r a : cscal r a = cmul (r, 0) a.
Proof. cring. Qed.
Lemma cmul_inv_r (a : cpx) : a <> c0 -> cmul a (cinv a) = c1.
Proof.
  intros H. destruct a as [x y]. assert (x * x + y * y <> 0).
  { intros E. apply H. assert (x = 0) by nra. assert (y = 0) by nra. subst. reflexivity. }
  unfold cmul, cinv, c1; simpl. f_equal; field; auto.
Qed.
Lemma cdiv_unique a b q : b <> c0 -> cmul q b = a -> cdiv a b = q.
Proof. intros Hb <-. unfold cdiv. transitivity (cmul q (cmul b (cinv b))); [ring|]. rewrite cmul_inv_r by auto. ring. Qed.

(** left eigenvector contraction: y^H A z = eig y^H B z for every z *)
Lemma left_contract N A B eig xl z : (forall j, (j < N)%nat -> csum N (fun i => cmul (conj (xl i)) (A i j, 0)) = cmul eig (csum N (fun i => cmul (conj (xl i)) (B i j, 0)))) ->
  cdot N xl (rmv N A z) = cmul eig (cdot N xl (rmv N B z)).
Proof.
  intros HL. assert (X : forall M, cdot N xl (rmv N M z) = csum N (fun j => cmul (csum N (fun i => cmul (conj (xl i)) (M i j, 0))) (z j))).
  { intros M. unfold cdot, rmv. rewrite (csum_ext N _ (fun i => csum N (fun j => cmul (cmul (conj (xl i)) (M i j, 0)) (z j)))).
    - rewrite csum_swap. apply csum_ext. intros j _. apply csum_mul_r.
    - intros i _. rewrite <- csum_mul_l. apply csum_ext. intros j _. rewrite cscal_mul. ring. }
  rewrite !X. rewrite <- csum_mul_l. apply csum_ext. intros j Hj. rewrite HL by auto. ring.
Qed.

(** the sensitivity formula from the differentiated eigenvalue equation *)
Lemma eig_formula N A B dA dB eig deig xl xr dx :
  (forall j, (j < N)%nat -> csum N (fun i => cmul (conj (xl i)) (A i j, 0)) = cmul eig (csum N (fun i => cmul (conj (xl i)) (B i j, 0)))) ->
  (forall i, (i < N)%nat -> cadd (rmv N dA xr i) (rmv N A dx i) =
      cadd (cmul deig (rmv N B xr i)) (cadd (cmul eig (rmv N dB xr i)) (cmul eig (rmv N B dx i)))) ->
  cdot N xl (rmv N B xr) <> c0 -> eig_sens N A B dA dB eig xl xr = deig.
Proof.
  intros HL HD Hn. unfold eig_sens. apply cdiv_unique; auto.
  assert (E : cdot N xl (fun i => cadd (rmv N dA xr i) (rmv N A dx i)) =
              cdot N xl (fun i => cadd (cmul deig (rmv N B xr i)) (cadd (cmul eig (rmv N dB xr i)) (cmul eig (rmv N B dx i))))).
  { apply csum_ext. intros i Hi. now rewrite HD. }
  assert (Dadd : forall f h, cdot N xl (fun i => cadd (f i) (h i)) = cadd (cdot N xl f) (cdot N xl h)).
  { intros f h. unfold cdot. rewrite <- csum_add. apply csum_ext. intros; ring. }
  assert (Dmul : forall a f, cdot N xl (fun i => cmul a (f i)) = cmul a (cdot N xl f)).
  { intros a f. unfold cdot. rewrite <- csum_mul_l. apply csum_ext. intros; ring. }
  assert (Dsub : forall f h, cdot N xl (fun i => csub (f i) (h i)) = csub (cdot N xl f) (cdot N xl h)).
  { intros f h. unfold cdot. rewrite <- csum_sub. apply csum_ext. intros; ring. }
  rewrite !Dadd in E. rewrite !Dmul in E. rewrite Dsub, Dmul.
  change (rmv N dA xr) with (fun i => rmv N dA xr i) in E.
  assert (L := left_contract N A B eig xl dx HL). change (fun i => rmv N A dx i) with (rmv N A dx) in E. change (fun i => rmv N B dx i) with (rmv N B dx) in E.
  rewrite L in E. change (fun i => rmv N dA xr i) with (rmv N dA xr) in *. change (fun i => rmv N dB xr i) with (rmv N dB xr) in *.
  change (fun i => rmv N B xr i) with (rmv N B xr) in *.
  set (p := cdot N xl (rmv N dA xr)) in *. set (q := cdot N xl (rmv N B dx)) in *. set (r := cdot N xl (rmv N B xr)) in *. set (s := cdot N xl (rmv N dB xr)) in *.
  assert (E2 : p = csub (cadd (cmul deig r) (cadd (cmul eig s) (cmul eig q))) (cmul eig q)) by (rewrite <- E; ring).
  rewrite E2. ring.
Qed.

(** derivative of a complex-valued function of a real parameter *)
Definition cderiv (f : R -> cpx) (p : R) (d : cpx) : Prop :=
  derivable_pt_lim (fun t => fst (f t)) p (fst d) /\ derivable_pt_lim (fun t => snd (f t)) p (snd d).
Lemma dpl_ext f h p d : (forall t, f t = h t) -> derivable_pt_lim f p d -> derivable_pt_lim h p d.
Proof. intros E H eps He. destruct (H eps He) as (dl & Hd). exists dl. intros t H1 H2. rewrite <- !E. auto. Qed.
Lemma cderiv_ext f h p d : (forall t, f t = h t) -> cderiv f p d -> cderiv h p d.
Proof. intros E (H1 & H2). split; [apply (dpl_ext (fun t => fst (f t)))|apply (dpl_ext (fun t => snd (f t)))]; auto; intros; now rewrite E. Qed.
Lemma cderiv_const a p : cderiv (fun _ => a) p c0.
Proof. split; apply (derivable_pt_lim_const _ p). Qed.
Lemma cderiv_add f h p df dh : cderiv f p df -> cderiv h p dh -> cderiv (fun t => cadd (f t) (h t)) p (cadd df dh).
Proof. intros (F1 & F2) (H1 & H2). split; simpl; apply (derivable_pt_lim_plus _ _ p _ _); auto. Qed.
Lemma cderiv_mul f h p df dh : cderiv f p df -> cderiv h p dh -> cderiv (fun t => cmul (f t) (h t)) p (cadd (cmul df (h p)) (cmul (f p) dh)).
Proof.
  intros (F1 & F2) (H1 & H2). split; simpl.
  - replace (fst df * fst (h p) - snd df * snd (h p) + (fst (f p) * fst dh - snd (f p) * snd dh))
      with ((fst df * fst (h p) + fst (f p) * fst dh) - (snd df * snd (h p) + snd (f p) * snd dh)) by ring.
    apply (derivable_pt_lim_minus (fun t => fst (f t) * fst (h t)) (fun t => snd (f t) * snd (h t)) p);
    [apply (derivable_pt_lim_mult (fun t => fst (f t)) (fun t => fst (h t)))|apply (derivable_pt_lim_mult (fun t => snd (f t)) (fun t => snd (h t)))]; auto.
  - replace (fst df * snd (h p) + snd df * fst (h p) + (fst (f p) * snd dh + snd (f p) * fst dh))
      with ((fst df * snd (h p) + fst (f p) * snd dh) + (snd df * fst (h p) + snd (f p) * fst dh)) by ring.
    apply (derivable_pt_lim_plus (fun t => fst (f t) * snd (h t)) (fun t => snd (f t) * fst (h t)) p);
    [apply (derivable_pt_lim_mult (fun t => fst (f t)) (fun t => snd (h t)))|apply (derivable_pt_lim_mult (fun t => snd (f t)) (fun t => fst (h t)))]; auto.
Qed.
Lemma cderiv_sum n f p df : (forall i, (i < n)%nat -> cderiv (fun t => f t i) p (df i)) -> cderiv (fun t => csum n (f t)) p (csum n df).
Proof.
  induction n as [|n IH]; intros H; simpl; [apply (cderiv_const (0,0))|]. apply cderiv_add; [apply IH; intros; apply H; lia|apply H; lia].
Qed.
Lemma cderiv_unique f p a b : cderiv f p a -> cderiv f p b -> a = b.
Proof.
  intros (A1 & A2) (B1 & B2). destruct a, b. simpl in *. f_equal; eapply uniqueness_limite; eauto.
Qed.
Lemma cderiv_rmv N (M : R -> rmat) (x : R -> cvec) p (dM : rmat) (dx : cvec) i :
  (forall j, (j < N)%nat -> derivable_pt_lim (fun t => M t i j) p (dM i j)) -> (forall j, (j < N)%nat -> cderiv (fun t => x t j) p (dx j)) ->
  cderiv (fun t => rmv N (M t) (x t) i) p (cadd (rmv N dM (x p) i) (rmv N (M p) dx i)).
Proof.
  intros HM Hx. unfold rmv. rewrite <- csum_add. apply (cderiv_sum N (fun t j => cscal (M t i j) (x t j)) p). intros j Hj.
  apply (cderiv_ext (fun t => cmul (M t i j, 0) (x t j))); [intros; symmetry; apply cscal_mul|].
  rewrite !cscal_mul. apply (cderiv_mul (fun t => (M t i j, 0)) (fun t => x t j) p (dM i j, 0)); auto.
  split; simpl; [auto|apply (derivable_pt_lim_const 0 p)].
Qed.
Lemma eig_derivative N (A B : R -> rmat) (eig : R -> cpx) (x : R -> cvec) xl p (dA dB : rmat) deig dx :
  (forall i j, (i < N)%nat -> (j < N)%nat -> derivable_pt_lim (fun t => A t i j) p (dA i j)) ->
  (forall i j, (i < N)%nat -> (j < N)%nat -> derivable_pt_lim (fun t => B t i j) p (dB i j)) ->
  cderiv eig p deig -> (forall j, (j < N)%nat -> cderiv (fun t => x t j) p (dx j)) ->
  (forall t i, (i < N)%nat -> rmv N (A t) (x t) i = cmul (eig t) (rmv N (B t) (x t) i)) ->
  (forall j, (j < N)%nat -> csum N (fun i => cmul (conj (xl i)) (A p i j, 0)) = cmul (eig p) (csum N (fun i => cmul (conj (xl i)) (B p i j, 0)))) ->
  cdot N xl (rmv N (B p) (x p)) <> c0 ->
  eig_sens N (A p) (B p) dA dB (eig p) xl (x p) = deig.
Proof.
  intros HA HB He Hx HR HL Hn. apply (eig_formula N (A p) (B p) dA dB (eig p) deig xl (x p) dx); auto.
  intros i Hi. assert (D1 := cderiv_rmv N A x p dA dx i (fun j Hj => HA i j Hi Hj) Hx).
  assert (D2 := cderiv_rmv N B x p dB dx i (fun j Hj => HB i j Hi Hj) Hx).
  assert (D3 := cderiv_mul _ _ _ _ _ He D2).
  apply (cderiv_ext _ (fun t => rmv N (A t) (x t) i)) in D3; [|intros; symmetry; apply HR; auto].
  rewrite (cderiv_unique _ _ _ _ D1 D3). ring.
Qed.

(** the two halves of a block row *)
Lemma csum_split n f : csum (n + n) f = cadd (csum n f) (csum n (fun i => f (n + i)%nat)).
Proof.
  assert (X : forall k, csum (n + k) f = cadd (csum n f) (csum k (fun i => f (n + i)%nat))).
  { induction k as [|k IH]; [rewrite Nat.add_0_r; simpl; change (0,0) with c0; ring|].
    rewrite Nat.add_succ_r. simpl. rewrite IH. ring. }
  apply X.
Qed.
Lemma csum_single n k f : (k < n)%nat -> (forall i, (i < n)%nat -> i <> k -> f i = c0) -> csum n f = f k.
Proof.
  induction n as [|n IH]; intros Hk H; [lia|]. simpl. destruct (Nat.eq_dec k n) as [->|].
  - rewrite (csum_ext n f (fun _ => c0)) by (intros; apply H; lia). rewrite csum_zero. ring.
  - rewrite IH by (intros; try apply H; lia). rewrite (H n) by lia. ring.
Qed.
Lemma cscal0 a : cscal 0 a = c0. Proof. cring. Qed.
Lemma cscal1 a : cscal 1 a = a. Proof. destruct a; unfold cscal; simpl; f_equal; ring. Qed.
Lemma block_A_top n k c x i : (i < n)%nat -> rmv (n + n) (block_A n k c) x i = x (i + n)%nat.
Proof.
  intros Hi. unfold rmv. rewrite (csum_single (n + n) (i + n)).
  - unfold block_A. destruct (Nat.ltb_spec i n); [|lia]. destruct (Nat.ltb_spec (i + n) n); [lia|]. rewrite Nat.eqb_refl. apply cscal1.
  - lia.
  - intros j Hj Hne. unfold block_A. destruct (Nat.ltb_spec i n); [|lia]. destruct (Nat.ltb_spec j n); [apply cscal0|].
    destruct (Nat.eqb_spec j (i + n)); [lia|apply cscal0].
Qed.
Lemma block_B_top n m x i : (i < n)%nat -> rmv (n + n) (block_B n m) x i = x i.
Proof.
  intros Hi. unfold rmv. rewrite (csum_single (n + n) i).
  - unfold block_B. destruct (Nat.ltb_spec i n); [|lia]. rewrite Nat.eqb_refl. apply cscal1.
  - lia.
  - intros j Hj Hne. unfold block_B. destruct (Nat.ltb_spec i n); [|lia]. destruct (Nat.eqb_spec i j); [lia|apply cscal0].
Qed.
(** the true derivatives of the two matrices *)
Definition true_dA (n : nat) (dk dc : rmat) : rmat := fun i j =>
  if Nat.ltb i n then 0 else if Nat.ltb j n then - dk (i - n)%nat j else - dc (i - n)%nat (j - n)%nat.
Definition true_dB (n : nat) (dm : rmat) : rmat := fun i j =>
  if Nat.ltb i n then 0 else if Nat.ltb j n then 0 else dm (i - n)%nat (j - n)%nat.
Lemma identity_blocks n k c m dk dc dm eig xl xr :
  (forall i, (i < n)%nat -> rmv (n + n) (block_A n k c) xr i = cmul eig (rmv (n + n) (block_B n m) xr i)) ->
  eig_sens (n + n) (block_A n k c) (block_B n m) (block_A n dk dc) (block_B n dm) eig xl xr =
  eig_sens (n + n) (block_A n k c) (block_B n m) (true_dA n dk dc) (true_dB n dm) eig xl xr.
Proof.
  intros HR. unfold eig_sens. f_equal. apply csum_ext. intros i Hi. f_equal.
  destruct (lt_dec i n) as [Hin|Hin].
  - rewrite block_A_top, block_B_top by auto. assert (X := HR i Hin). rewrite block_A_top, block_B_top in X by auto. rewrite X.
    assert (Z : forall M, (forall j, M i j = 0) -> rmv (n + n) M xr i = c0).
    { intros M HM. unfold rmv. rewrite (csum_ext _ _ (fun _ => c0)); [apply csum_zero|]. intros. rewrite HM. apply cscal0. }
    rewrite !Z; [ring| |]; intros j; unfold true_dA, true_dB; destruct (Nat.ltb_spec i n); auto; lia.
  - unfold rmv. f_equal; [|f_equal]; apply csum_ext; intros j _; f_equal; unfold block_A, block_B, true_dA, true_dB; destruct (Nat.ltb_spec i n); auto; lia.
Qed.

(** ** C30 *)
(** differentiable function of two variables *)
Definition diff2 (f : R -> R -> R) (p v a b : R) : Prop :=
  forall eps, 0 < eps -> exists d, 0 < d /\ forall h k, Rabs h < d -> Rabs k < d ->
    Rabs (f (p + h) (v + k) - f p v - a * h - b * k) <= eps * (Rabs h + Rabs k).
Lemma diff2_chain f V p a b v : diff2 f p (V p) a b -> derivable_pt_lim V p v ->
  derivable_pt_lim (fun t => f t (V t)) p (a + b * v).
Proof.
  intros HF HV eps He.
  set (K := Rabs v + 1). assert (HK : 0 < K) by (unfold K; generalize (Rabs_pos v); lra).
  set (e1 := eps / (4 * (1 + K))). assert (He1 : 0 < e1) by (unfold e1; apply Rdiv_lt_0_compat; lra).
  destruct (HF e1 He1) as (d & Hd & HF').
  set (B := Rabs b + 1). assert (HB : 0 < B) by (unfold B; generalize (Rabs_pos b); lra).
  destruct (HV (Rmin 1 (eps / (4 * B)))) as (d2 & HV').
  { apply Rmin_pos; [lra|]. apply Rdiv_lt_0_compat; lra. }
  assert (Hdd : 0 < Rmin (Rmin d (d / K)) d2).
  { apply Rmin_pos; [apply Rmin_pos; auto; apply Rdiv_lt_0_compat; auto|apply (cond_pos d2)]. }
  exists (mkposreal _ Hdd). intros h Hh Hhd. simpl in Hhd.
  assert (H1 : Rabs h < d) by (eapply Rlt_le_trans; [exact Hhd|]; eapply Rle_trans; [apply Rmin_l|apply Rmin_l]).
  assert (H2 : Rabs h < d / K) by (eapply Rlt_le_trans; [exact Hhd|]; eapply Rle_trans; [apply Rmin_l|apply Rmin_r]).
  assert (H3 : Rabs h < d2) by (eapply Rlt_le_trans; [exact Hhd|apply Rmin_r]).
  assert (HQ := HV' h Hh H3). set (k := V (p + h) - V p) in *.
  assert (Hh0 : 0 < Rabs h) by (apply Rabs_pos_lt; auto).
  assert (Q1 : Rabs (k / h - v) < 1) by (eapply Rlt_le_trans; [exact HQ|apply Rmin_l]).
  assert (Q2 : Rabs (k / h - v) < eps / (4 * B)) by (eapply Rlt_le_trans; [exact HQ|apply Rmin_r]).
  assert (Hk : Rabs k <= K * Rabs h).
  { replace k with (((k / h - v) + v) * h) by (field; auto). rewrite Rabs_mult. apply Rmult_le_compat_r; [apply Rabs_pos|].
    eapply Rle_trans; [apply Rabs_triang|]. unfold K. lra. }
  assert (Hkd : Rabs k < d).
  { eapply Rle_lt_trans; [exact Hk|]. apply (Rmult_lt_compat_l K) in H2; auto. replace (K * (d / K)) with d in H2 by (field; lra). auto. }
  assert (X := HF' h k H1 Hkd). replace (V p + k) with (V (p + h)) in X by (unfold k; ring).
  replace ((f (p + h) (V (p + h)) - f p (V p)) / h - (a + b * v))
    with ((f (p + h) (V (p + h)) - f p (V p) - a * h - b * k) / h + b * (k / h - v)) by (field; auto).
  eapply Rle_lt_trans; [apply Rabs_triang|].
  assert (Y1 : Rabs ((f (p + h) (V (p + h)) - f p (V p) - a * h - b * k) / h) <= eps / 4).
  { unfold Rdiv at 1. rewrite Rabs_mult, Rabs_inv. apply (Rmult_le_reg_r (Rabs h)); auto. rewrite Rmult_assoc, Rinv_l, Rmult_1_r by lra.
    eapply Rle_trans; [exact X|]. apply Rle_trans with (e1 * ((1 + K) * Rabs h)); [apply Rmult_le_compat_l; lra|].
    unfold e1. right. field. lra. }
  assert (Y2 : Rabs (b * (k / h - v)) <= eps / 4).
  { rewrite Rabs_mult. apply Rle_trans with (B * (eps / (4 * B))).
    - apply Rmult_le_compat; try apply Rabs_pos; try lra. unfold B. lra.
    - right. field. lra. }
  lra.
Qed.
Lemma implicit_derivative f V p a b v : diff2 f p (V p) a b -> derivable_pt_lim V p v -> (forall t, f t (V t) = 0) -> b <> 0 -> v = - a / b.
Proof.
  intros HF HV H0 Hb. assert (D := diff2_chain _ _ _ _ _ _ HF HV).
  assert (D0 : derivable_pt_lim (fun t => f t (V t)) p 0).
  { apply (dpl_ext (fun _ => 0)); [intros; now rewrite H0|apply (derivable_pt_lim_const 0 p)]. }
  assert (E := uniqueness_limite _ _ _ _ D D0). field_simplify_eq; auto. lra.
Qed.
