(** Theorems about participation in an output and the temperature adjoint of a stress output. *)
From Coq Require Import Reals.
From Coquelicot Require Import Coquelicot.
From Coq Require Import List Arith Bool Lia Lra FunctionalExtensionality.
From Verif Require Import Base BaseLemmas Sens_Model Sens_Spec Sens_Proofs Sens_Proofs2 Tad_Model Tad_Spec Tad_Proofs.
Import ListNotations.
Open Scope R_scope.

(** ** C207 who takes part *)
(** Choosing, in any order that is accepted. *)
Theorem C207_choose : forall l c,
  (choose_subdomains l c = (if empty (c_subs c) && empty (c_elems c) then Ok (mkCh false l [] (c_bids c)) else Fault AssertFailed)) /\
  (choose_all c = (if empty (c_subs c) && empty (c_elems c) then Ok (mkCh true [] [] (c_bids c)) else Fault AssertFailed)) /\
  (choose_elements l c = (if empty (c_subs c) && empty (c_elems c) then Ok (mkCh false [] l (c_bids c)) else Fault AssertFailed)) /\
  (choose_boundaries l c = match c_bids c with [] => Ok (mkCh (c_all c) (c_subs c) (c_elems c) l) | _ => Fault AssertFailed end).
Proof.
  intros l [a s e b]. unfold choose_subdomains, choose_all, choose_elements, choose_boundaries. cbn.
  destruct s as [|x s], e as [|y e], b as [|z b]; cbn; auto.
Qed.
(** After one choice exactly the chosen elements take part, if no element is refined more than once and only unrefined elements are listed.
    Missing: everything else. *)
Theorem C207_element_partial : forall c e,
  (length (m_up e) <= 1)%nat -> (m_up e <> [] -> ~ In (m_id e) (c_elems c)) -> (evaluates c e = true <-> takes_part c e).
Proof.
  intros c e L N. unfold evaluates, takes_part. destruct (c_all c); [intuition auto|]. destruct (mem (m_sub e) (c_subs c)) eqn:M.
  - apply mem_iff in M. intuition auto.
  - assert (~ In (m_sub e) (c_subs c)) by (rewrite <- mem_iff; congruence).
    rewrite mem_iff. destruct (m_up e) as [|p [|p' t]]; cbn in L; [| |lia].
    + split; [auto|]. intros [E|[E|[E|(a & [] & _)]]]; try contradiction; auto; discriminate.
    + split; [intros I; right; right; right; exists p; cbn; auto|]. intros [E|[E|[E|(a & [<-|[]] & I)]]]; try contradiction; auto; [discriminate|].
      exfalso. apply N; auto. discriminate.
Qed.
(** What is evaluated always takes part. *)
Theorem C207_sound : forall c e, evaluates c e = true -> takes_part c e.
Proof.
  intros c e. unfold evaluates, takes_part. destruct (c_all c); [auto|]. destruct (mem (m_sub e) (c_subs c)) eqn:M; [apply mem_iff in M; auto|].
  rewrite mem_iff. destruct (m_up e) as [|p t]; [auto|]. intros I. right. right. right. exists p. split; auto. now left.
Qed.
(** An element of a refined mesh that is listed itself does not take part, *)
Theorem C207_listed_refuted : exists c e, choose_elements [m_id e] fresh = Ok c /\ takes_part c e /\ evaluates c e = false.
Proof. exists (mkCh false [] [7%nat] []), (mkMe 7 [3%nat] 0). repeat split. right. right. left. now left. Qed.
(** and neither does one that was refined twice from a listed one. *)
Theorem C207_twice_refuted : exists c e, choose_elements [3%nat] fresh = Ok c /\ m_up e = [5%nat; 3%nat] /\ takes_part c e /\ evaluates c e = false.
Proof. exists (mkCh false [] [3%nat] []), (mkMe 7 [5%nat; 3%nat] 0). repeat split. right. right. right. exists 3%nat. cbn; auto. Qed.
Theorem C207_side : forall c ids, evaluates_side c ids = true <-> exists b, In b ids /\ In b (c_bids c).
Proof. exact sides. Qed.
Example C207_example : let c := mkCh false [] [3%nat] [] in let e := mkMe 7 [3%nat] 0 in
  evaluates c e = true /\ evaluates c (mkMe 8 [4%nat] 0) = false.
Proof. split; reflexivity. Qed.

(** ** C208 temperature adjoint *)
(** The assembled vector is the derivative of the output with respect to the temperatures, through the stress and through the
    displacements, along any path with the rates dT and dX: q is the value of the output, Res are the elements' residuals in
    equilibrium along the test function adj, J the elements' stiffness and adj the structural adjoint.
    Missing: elements that are heated and do not take part in the stress output. *)
Theorem C208_adjoint_partial : forall (nt : nat) (es : list telem) (adj : vec) (dT dX : vec) (q : R -> R) (dqX : R) (t0 : R)
    (Res : telem -> R -> vec) (J : telem -> nat -> vec) out,
  (forall e, In e es -> te_part e = true -> te_load e = true) ->
  (forall e, In e es -> forall d, In d (te_t e) -> (d < nt)%nat) ->
  is_derive q t0 (total (fun e => works (te_t e) (te_fun e (te_dstress e)) dT) (filter te_part es) + dqX) ->
  (forall e k, In e es -> (k < length (te_s e))%nat ->
     is_derive (fun t => Res e t k) t0
       ((if te_load e then sum (length (te_t e)) (fun j => te_mat e k j * dT (nth j (te_t e) O)) else 0)
        + sum (length (te_s e)) (fun l => J e k l * dX (nth l (te_s e) O)))) ->
  (forall t, total (fun e => works (te_s e) (Res e t) adj) es = 0) ->
  total (fun e => works (te_s e) (fun k => sum (length (te_s e)) (fun l => J e k l * dX (nth l (te_s e) O))) adj) es = - dqX ->
  (forall e, In e es -> te_load e = true -> te_part e = true) ->
  temperature_rhs true adj es zero = Ok out ->
  is_derive q t0 (sum nt (fun d => out d * dT d)).
Proof.
  intros nt es adj dT dX q dqX t0 Res J out L B Dq DR Eq Adj All E. rewrite rhs_value in E by auto. injection E as <-.
  assert (D : is_derive (fun t => total (fun e => works (te_s e) (Res e t) adj) es) t0
    (total (fun e => works (te_s e) (fun k => (if te_load e then sum (length (te_t e)) (fun j => te_mat e k j * dT (nth j (te_t e) O)) else 0)
        + sum (length (te_s e)) (fun l => J e k l * dX (nth l (te_s e) O))) adj) es)).
  { apply (der_total es (fun e t => works (te_s e) (Res e t) adj)). intros e He. unfold works.
    apply (der_sum _ (fun k t => adj (nth k (te_s e) O) * Res e t k)). intros k Hk. apply der_scal. now apply DR. }
  assert (Z : total (fun e => works (te_s e) (fun k => (if te_load e then sum (length (te_t e)) (fun j => te_mat e k j * dT (nth j (te_t e) O)) else 0)
        + sum (length (te_s e)) (fun l => J e k l * dX (nth l (te_s e) O))) adj) es = 0).
  { apply (der_unique _ _ _ _ D). apply (der_ext (fun _ => 0) _ _ 0); [exact Eq|reflexivity|apply @is_derive_const]. }
  assert (Z2 : total (fun e => works (te_s e) (fun k => if te_load e then sum (length (te_t e)) (fun j => te_mat e k j * dT (nth j (te_t e) O)) else 0) adj) es = dqX).
  { rewrite <- (Ropp_involutive dqX), <- Adj. apply Rplus_opp_r_uniq. rewrite Rplus_comm, <- total_plus. etransitivity; [|exact Z]. apply total_ext. intros e _.
    unfold works. rewrite <- sum_plus. apply sum_ext. intros. ring. }
  apply (der_ext q _ t0 (total (fun e => works (te_t e) (te_fun e (te_dstress e)) dT) (filter te_part es) + dqX)); [reflexivity| |exact Dq].
  transitivity (total (fun e => works (te_t e) (elem_value adj e) dT) es).
  { transitivity (sum nt (fun d => total (fun e => spread (te_t e) (elem_value adj e) d * dT d) es)).
    { apply sum_ext. intros d _. unfold zero. rewrite Rplus_0_l, Rmult_comm, <- total_scal. apply total_ext. intros. ring. }
    rewrite sum_total. apply total_ext. intros e He. apply spread_works. now apply B. }
  rewrite <- Z2. rewrite total_filter. rewrite <- total_plus. apply total_ext. intros e He. unfold elem_value. specialize (L e He). specialize (All e He).
  destruct (te_part e), (te_load e); try (specialize (L eq_refl)); try (specialize (All eq_refl)); try discriminate.
  - unfold works. transitivity (sum (length (te_t e)) (fun k => dT (nth k (te_t e) O) * te_fun e (te_dstress e) k)
       + sum (length (te_t e)) (fun k => sum (length (te_s e)) (fun l => adj (nth l (te_s e) O) * te_mat e l k * dT (nth k (te_t e) O)))).
    + rewrite <- sum_plus. apply sum_ext. intros k _. rewrite Rmult_plus_distr_l. f_equal. rewrite <- sum_scal_l. apply sum_ext. intros. unfold dof. ring.
    + f_equal. rewrite sum_swap. apply sum_ext. intros l _. rewrite <- sum_scal_l. apply sum_ext. intros. ring.
  - unfold works. rewrite sum_0, sum_0; [ring| |]; intros; unfold zero; ring.
Qed.
(** Elements that do not take part add nothing, although their thermal load moves the structure. *)
Definition hot (part : bool) : telem :=
  mkTe [0%nat] [0%nat] part true 0 (fun _ => zero) (fun _ => zero) (fun _ _ => -1) (fun d => zero).
(** One bar with stiffness one and free expansion equal to its temperature: the displacement follows the temperature. *)
Theorem C208_subset_refuted : exists (es : list telem) (adj : vec) (T X : R -> vec) (out : vec),
  (forall t, total (fun e => works (te_s e) (fun k => X t k - T t k) adj) es = 0) /\ (forall t, X t O = T t O) /\
  adj O = -1 /\ (forall t, T t O = t) /\
  temperature_rhs true adj es zero = Ok out /\ sum 1 (fun d => out d * 1) = 0 /\ is_derive (fun t => X t O) 0 1.
Proof.
  exists [hot false], (fun _ => -1), (fun t _ => t), (fun t _ => t). eexists. split; [|split; [reflexivity|split; [reflexivity|split; [reflexivity|split; [reflexivity|split]]]]].
  - intros t. cbv -[Rplus Rmult IZR Ropp Rinv Rdiv Rminus]. ring.
  - cbv -[Rplus Rmult IZR Ropp Rinv Rdiv Rminus]. ring.
  - apply @is_derive_id.
Qed.
(** An element of the stress output without thermal load stops the evaluation, unless the data left from the structural adjoint
    happens to have the size of the thermal element. *)
Theorem C208_unheated_refuted : forall adj e es acc, te_part e = true -> te_load e = false -> te_size e <> length (te_t e) ->
  temperature_rhs true adj (e :: es) acc = Fault AssertFailed.
Proof. intros adj e es acc P L N. cbn. unfold temperature_elem. rewrite P, L. cbn. apply Nat.eqb_neq in N. now rewrite N. Qed.
Theorem C208_not_ready : forall adj e es acc, temperature_rhs false adj (e :: es) acc = Fault AssertFailed.
Proof. reflexivity. Qed.
(** The case of the bar, taking part: output x, adjoint -1, so the derivative one is found. *)
Example C208_example : exists out, temperature_rhs true (fun _ => -1) [hot true] zero = Ok out /\ sum 1 (fun d => out d * 1) = 1 /\
  total (fun e => works (te_s e) (fun k => sum (length (te_s e)) (fun l => 1 * 1)) (fun _ => -1)) [hot true] = - 1 /\
  is_derive (fun t : R => t - t) 0 (sum 1 (fun j => te_mat (hot true) 0 j * 1) + 1).
Proof.
  eexists. split; [reflexivity|]. split; [|split]; [cbv -[Rplus Rmult IZR Ropp Rinv Rdiv Rminus]; ring|cbv -[Rplus Rmult IZR Ropp Rinv Rdiv Rminus]; ring|].
  apply (der_ext (fun _ => 0) _ _ 0); [intros; ring|cbn; ring|apply @is_derive_const].
Qed.

Print Assumptions C207_choose.
Print Assumptions C207_element_partial.
Print Assumptions C207_sound.
Print Assumptions C207_listed_refuted.
Print Assumptions C207_twice_refuted.
Print Assumptions C207_side.
Print Assumptions C208_adjoint_partial.
Print Assumptions C208_subset_refuted.
Print Assumptions C208_unheated_refuted.
Print Assumptions C208_not_ready.
