(** Lemmas on the level-set outputs, the interface velocity and the nearest point search. *)
From Coq Require Import Reals Lra Lia FunctionalExtensionality.
From Coquelicot Require Import Coquelicot.
From Coq Require Import List Arith Bool Permutation.
From Verif Require Import Base BaseLemmas RBool Sens_Model Sens_Spec Sens_Proofs2 Heat_Proofs Solid_Proofs2 Lse_Model Lse_Spec Lse_Proofs Lse_Proofs2.
Import ListNotations.
Open Scope R_scope.

(** ** Loops over the elements *)
Lemma on_elems_sum step g h es : (forall e s, In e es -> step e s = Ok (fst s + g e, snd s + h e)) ->
  forall s, on_elems step es s = Ok (fst s + total g es, snd s + total h es).
Proof.
  induction es as [|e es IH]; intros H s; cbn [on_elems].
  - unfold total; cbn. rewrite !Rplus_0_r. now destruct s.
  - rewrite H by (left; auto). cbn [bind]. rewrite IH by (intros; apply H; right; auto). cbn [fst snd].
    unfold total; cbn. unfold lsum. do 2 f_equal; ring.
Qed.
Lemma on_ranks_sum step g h rs : (forall e s, In e (concat rs) -> step e s = Ok (fst s + g e, snd s + h e)) ->
  on_ranks step rs = Ok (map (fun es => (total g es, total h es)) rs).
Proof.
  induction rs as [|es rs IH]; intros H; cbn [on_ranks]; [reflexivity|].
  rewrite (on_elems_sum step g h es) by (intros; apply H; cbn; apply in_or_app; auto). cbn [bind].
  rewrite IH by (intros; apply H; cbn; apply in_or_app; auto). cbn [bind map fst snd]. unfold zero_out; cbn.
  rewrite !Rplus_0_l. reflexivity.
Qed.
Lemma lsum_concat {A} (g : A -> R) rs : lsum (map (total g) rs) = total g (concat rs).
Proof. induction rs as [|es rs IH]; [reflexivity|]. cbn [map concat lsum fold_right]. rewrite total_app, <- IH. reflexivity. Qed.
Lemma total_of_ranks (g h : oelem -> R) rs k :
  output_total false (map (fun es => (total g es, total h es)) rs) k = total g (concat rs) /\
  output_sensitivity_total false (map (fun es => (total g es, total h es)) rs) k = total h (concat rs).
Proof. unfold output_total, output_sensitivity_total, shared. rewrite !map_map. cbn. rewrite <- !lsum_concat. auto. Qed.
Lemma total_filter {A} (p : A -> bool) (g : A -> R) l : total (fun x => if p x then g x else 0) l = total g (filter p l).
Proof. induction l as [|x l IH]; [reflexivity|]. cbn [filter]. unfold total in *. cbn. destruct (p x); cbn; unfold lsum in *; rewrite IH; ring. Qed.
Lemma total_perm {A} (g : A -> R) l1 l2 : Permutation l1 l2 -> total g l1 = total g l2.
Proof. intros H. unfold total. apply lsum_perm. now apply Permutation_map. Qed.
Lemma total_flat {A B} (f : A -> list B) (g : B -> R) l : total g (flat_map f l) = total (fun x => total g (f x)) l.
Proof. induction l as [|x l IH]; [reflexivity|]. cbn [flat_map]. rewrite total_app, IH. reflexivity. Qed.

(** ** Interface velocity and normal *)
Lemma sum3 (f : nat -> R) : sum 3 f = f 0%nat + f 1%nat + f 2%nat.
Proof. cbn. ring. Qed.
Lemma sq3 (g : nat -> R) : sum 3 (fun i => g i ^ 2) = dotp 3 g g.
Proof. unfold dotp. apply sum_ext. intros; ring. Qed.
Lemma norm_pad m g : (3 <= m)%nat -> norm m (fun i => if (i <? 3)%nat then - g i else 0) = len 3 g.
Proof.
  intros H. rewrite norm_len. unfold len. f_equal. replace m with (3 + (m - 3))%nat by lia. rewrite sum_add.
  rewrite (sum_0 (m - 3)) by (intros; cbn; ring). cbn. ring.
Qed.
Lemma der_comp3 (g : R -> nat -> R) dg t0 : (forall i, (i < 3)%nat -> is_derive (fun t : R => g t i) t0 (dg i)) -> len 3 (g t0) <> 0 ->
  is_derive (fun t : R => len 3 (g t)) t0 (dotp 3 (g t0) dg / len 3 (g t0)).
Proof.
  intros H N. pose proof (len_pos _ _ N) as P.
  assert (D : is_derive (fun t : R => sum 3 (fun j => g t j * g t j)) t0 (sum 3 (fun j => 2 * (g t0 j * dg j)))).
  { apply (der_sum 3 (fun j t => g t j * g t j)). intros j Hj. eapply der_eq; [apply der_mult; apply (H j Hj)|]. cbn. ring. }
  rewrite sum_scal_l in D. unfold len at 1.
  assert (Q : 0 < sum 3 (fun j => g t0 j * g t0 j)) by (rewrite <- len_sq; nra).
  pose proof (is_derive_comp sqrt (fun t : R => sum 3 (fun j => g t j * g t j)) t0 _ _
    (proj2 (is_derive_Reals _ _ _) (derivable_pt_lim_sqrt _ Q)) D) as C.
  eapply der_eq; [exact C|]. unfold scal; cbn -[sum]. unfold mult; cbn -[sum]. fold (len 3 (g t0)). unfold dotp. field. auto.
Qed.

(** ** Nearest point search *)
Section Search.
Variables (ls : point -> option R) (dls : point -> option (nat -> R)) (solve : matrix -> vec -> vec) (dim : nat).
Lemma loop_ends sub p v0 : (forall s x v, sub = Some s -> s x v <> Fault OutOfFuel) -> forall fuel k p_opt dv0 L0, (k <= 80)%nat -> (81 <= fuel + k)%nat ->
  search_loop ls dls solve dim sub p v0 fuel k p_opt dv0 L0 <> Fault OutOfFuel.
Proof.
  intros Hs. induction fuel as [|fuel IH]; intros k p_opt dv0 L0 Hk Hf; [lia|]. cbn [search_loop].
  destruct (ls p_opt) as [v|]; [|discriminate]. destruct (dls p_opt) as [g|]; [|discriminate]. cbv zeta.
  destruct (step_search _ _ _ _ _ _) as [[dv1 L1]|]; [|discriminate].
  destruct (Nat.eqb_spec k 80) as [->|D].
  - destruct sub as [s|]; [|discriminate]. specialize (Hs s dv1 v0 eq_refl). destruct (s dv1 v0) as [v'|e]; cbn [bind]; [destruct (ls v'); discriminate|]. congruence.
  - match goal with |- (if ?c then _ else _) <> _ => destruct c end; [discriminate|]. apply IH; lia.
Qed.
(** a property of the candidates that every step keeps, and that the result of the second search has *)
Lemma loop_inv sub p v0 (I : (nat -> R) -> R -> Prop) (Res : (nat -> R) -> Prop) :
  (forall x v g dv1 L1 L0, I x L0 -> ls x = Some v -> dls x = Some g ->
     step_search ls p x (fun i => - solve (coeffs g) (gradL p x v g) i) 1 10 = Some (dv1, L1) -> I dv1 L1) ->
  (forall x L, I x L -> Res (top dim x)) ->
  (forall x L v g, I x L -> ls x = Some v -> dls x = Some g ->
     step_search ls p x (fun i => - solve (coeffs g) (gradL p x v g) i) 1 10 = None -> Res (fun i => if (i <? dim)%nat then x i else v0 i)) ->
  (forall s x L v' w, sub = Some s -> I x L -> s x v0 = Ok v' -> ls v' = Some w -> Res (top dim (fun i => if (i <? 3)%nat then v' i else x i))) ->
  forall fuel k x L r, I x L -> search_loop ls dls solve dim sub p v0 fuel k x x L = Ok r -> Res r.
Proof.
  intros H1 H2 H3 H4. induction fuel as [|fuel IH]; intros k x L r Hi H; cbn [search_loop] in H; [discriminate|].
  destruct (ls x) as [v|] eqn:Ev; [|discriminate]. destruct (dls x) as [g|] eqn:Eg; [|discriminate]. cbv zeta in H.
  destruct (step_search _ _ _ _ _ _) as [[dv1 L1]|] eqn:Es; [|injection H as <-; eapply H3; eauto].
  assert (I1 : I dv1 L1) by (eapply H1; eauto).
  destruct (k =? 80)%nat.
  - destruct sub as [s|]; [|injection H as <-; eapply H2; eauto].
    destruct (s dv1 v0) as [v'|] eqn:E; [|discriminate]. cbn [bind] in H. destruct (ls v') as [w|] eqn:Ew; [|discriminate].
    injection H as <-. eapply H4; eauto.
  - match type of H with (if ?c then _ else _) = _ => destruct c end; [injection H as <-; eapply H2; eauto|]. eapply IH; eauto.
Qed.
End Search.

Lemma exact_rows solve g b : exact_solver solve -> 0 < dotp 3 g g ->
  let y := solve (coeffs g) b in
  (forall i, (i < 3)%nat -> y i + g i * y 3%nat = b i) /\ dotp 3 g y = b 3%nat.
Proof.
  intros X G y. pose proof (X g b G) as E. fold y in E. split.
  - intros i Hi. assert (Hi4 : (i < 4)%nat) by lia. specialize (E i Hi4). cbn in E. unfold coeffs in E.
    destruct i as [|[|[|i]]]; cbn in E; [lra|lra|lra|lia].
  - specialize (E 3%nat ltac:(lia)). cbn in E. unfold dotp. rewrite sum3. lra.
Qed.
Lemma dotp3_lin g x y c : dotp 3 g (fun i => x i + c * y i) = dotp 3 g x + c * dotp 3 g y.
Proof. unfold dotp. rewrite !sum3. ring. Qed.
(** With an affine level set function each step halves the remaining distance. *)
Lemma affine_step ls dls solve c g p x v g' dv1 L1 : affine ls dls c g -> exact_solver solve -> 0 < dotp 3 g g ->
  ls x = Some v -> dls x = Some g' ->
  step_search ls p x (fun i => - solve (coeffs g') (gradL p x v g') i) 1 10 = Some (dv1, L1) ->
  g' = g /\ (forall i, (i < 3)%nat -> dv1 i - p i + dv1 3%nat * g i = 1/2 * (x i - p i + x 3%nat * g i)) /\
  c + dotp 3 g dv1 = 1/2 * (c + dotp 3 g x) /\
  L1 = 1/2 * sum 3 (fun i => (dv1 i - p i) ^ 2) + dv1 3%nat * (c + dotp 3 g dv1).
Proof.
  intros A X G Ev Eg S. destruct (A x) as [A1 A2]. rewrite A1 in Ev. injection Ev as <-. rewrite A2 in Eg. injection Eg as <-.
  split; [reflexivity|]. cbn [step_search] in S. unfold objective in S.
  set (dv := fun i => x i + 1/2 * 1 * - solve (coeffs g) (gradL p x (c + dotp 3 g x) g) i) in *.
  destruct (A dv) as [B _]. rewrite B in S. injection S as <- <-.
  destruct (exact_rows solve g (gradL p x (c + dotp 3 g x) g) X G) as [R1 R2].
  split; [|split; [|reflexivity]].
  - intros i Hi. specialize (R1 i Hi). unfold gradL in R1 at 3. apply Nat.ltb_lt in Hi. rewrite Hi in R1. unfold dv. lra.
  - unfold gradL in R2 at 2. cbn [Nat.ltb Nat.leb] in R2.
    assert (D : dotp 3 g dv = dotp 3 g x + - (1/2) * dotp 3 g (solve (coeffs g) (gradL p x (c + dotp 3 g x) g))); [|lra].
    rewrite <- dotp3_lin. clear. unfold dv. generalize (solve (coeffs g) (gradL p x (c + dotp 3 g x) g)). intros Y.
    unfold dotp. rewrite !sum3. lra.
Qed.
Lemma affine_never ls dls c g p x dx f k : affine ls dls c g -> step_search ls p x dx f k <> None.
Proof.
  intros A. destruct k; cbn [step_search]; unfold objective; destruct (A (fun i => x i + 1/2 * f * dx i)) as [B _]; rewrite B; discriminate.
Qed.
