(** Lemmas on participation and on the sum of the elements' derivatives. *)
From Coq Require Import Reals.
From Coquelicot Require Import Coquelicot.
From Coq Require Import List Arith Bool Lia Lra FunctionalExtensionality.
From Verif Require Import Base BaseLemmas Sens_Model Sens_Spec Sens_Proofs Sens_Proofs2 Tad_Model Tad_Spec.
Import ListNotations.
Open Scope R_scope.

Lemma mem_iff x l : mem x l = true <-> In x l.
Proof. unfold mem. rewrite existsb_exists. split; [intros (y & H & E); apply Nat.eqb_eq in E; now subst|intros H; exists x; split; auto; apply Nat.eqb_refl]. Qed.
Lemma empty_iff l : empty l = true <-> l = [].
Proof. destruct l; cbn; split; congruence. Qed.
Lemma sides c l : evaluates_side c l = true <-> exists b, In b l /\ In b (c_bids c).
Proof.
  induction l as [|b t IH]; cbn; [split; [discriminate|intros (b & [] & _)]|]. destruct (mem b (c_bids c)) eqn:E.
  - apply mem_iff in E. split; auto. exists b. auto.
  - rewrite IH. split; [intros (x & H & I); exists x; auto|]. intros (x & [<-|H] & I); [|exists x; auto]. apply mem_iff in I. congruence.
Qed.
(** adding a local vector and testing with a global one *)
Lemma one_entry n i (g : vec) : (i < n)%nat -> sum n (fun d => (if (i =? d)%nat then 1 else 0) * g d) = g i.
Proof.
  induction n as [|n IH]; intros H; [lia|]. cbn [sum]. destruct (Nat.eqb_spec i n) as [->|].
  - rewrite sum_0; [ring|]. intros d Hd. destruct (Nat.eqb_spec n d); [lia|ring].
  - rewrite IH by lia. ring.
Qed.
Lemma spread_works n ds v x : (forall d, In d ds -> (d < n)%nat) -> sum n (fun d => spread ds v d * x d) = works ds v x.
Proof.
  intros H. unfold spread, works.
  transitivity (sum n (fun d => sum (length ds) (fun k => v k * ((if (nth k ds O =? d)%nat then 1 else 0) * x d)))).
  { apply sum_ext. intros d _. rewrite <- sum_scal_r. apply sum_ext. intros k _. unfold dof. destruct (_ =? _)%nat; ring. }
  rewrite sum_swap. apply sum_ext. intros k Hk. rewrite sum_scal_l, one_entry by (apply H; now apply nth_In). ring.
Qed.
Definition elem_value (adj : vec) (e : telem) : vec :=
  if te_part e then fun j => te_fun e (if te_load e then te_dstress e else te_data e) j
     + sum (length (te_s e)) (fun k => adj (dof (te_s e) k) * (if te_load e then te_mat e else fun _ => zero) k j) else zero.
Lemma rhs_value adj es : (forall e, In e es -> te_part e = true -> te_load e = true) -> forall acc,
  temperature_rhs true adj es acc = Ok (fun d => acc d + total (fun e => spread (te_t e) (elem_value adj e) d) es).
Proof.
  induction es as [|e t IH]; intros H acc; cbn [temperature_rhs].
  - f_equal. apply functional_extensionality. intros d. unfold total. cbn. ring.
  - unfold temperature_elem. cbn [assert_]. unfold elem_value. destruct (te_part e) eqn:P.
    + rewrite (H e (or_introl eq_refl) P). rewrite Nat.eqb_refl. cbn [assert_ bind]. rewrite IH by (intros; apply H; auto; now right).
      f_equal. apply functional_extensionality. intros d. rewrite total_cons. rewrite P, (H e (or_introl eq_refl) P). unfold elem_value. ring.
    + cbn [bind]. rewrite IH by (intros; apply H; auto; now right). f_equal. apply functional_extensionality. intros d. rewrite total_cons, P. unfold elem_value. ring.
Qed.
