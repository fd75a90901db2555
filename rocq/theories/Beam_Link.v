(** The functions [to_local] and [to_global] on unknowns indexed by variable and node are what the transformations of the
    flattened vectors of structural_element_base.cpp (Geom_Model) compute. *)
From Coq Require Import Reals Lra.
From Coq Require Import List Arith Bool Lia.
From Verif Require Import Base BaseLemmas Geom_Model Geom_Spec Geom_Proofs Geom_Proofs2 Geom_Props Solid_Model Dof6_Model.
Open Scope R_scope.

Definition axes_of (e : option local_elem) : frame := option_map T e.
Theorem C140_storage_local : forall dim e n v w c a, (dim < 3)%nat -> len v = (6 * n)%nat -> vector_to_local dim e v = Ok w ->
  (c < 6)%nat -> (a < n)%nat -> cell w (c * n + a)%nat = to_local (axes_of e) (fun c a => cell v (c * n + a)%nat) c a.
Proof.
  intros dim e n v w c a HD L E Hc Ha. destruct e as [e|]; cbn [axes_of option_map to_local].
  - assert (D : (c / 3 = 0 \/ c / 3 = 1)%nat /\ (c mod 3 < 3)%nat /\ c = (3 * (c / 3) + c mod 3)%nat).
    { pose proof (Nat.mod_upper_bound c 3 ltac:(lia)). pose proof (Nat.div_mod c 3 ltac:(lia)).
      assert (c / 3 < 2)%nat by (apply Nat.div_lt_upper_bound; lia). lia. }
    destruct D as (D1 & D2 & D3).
    pose proof (node_local dim (Some e) n HD e v w (3 * (c / 3)) a eq_refl L E ltac:(lia) Ha (c mod 3) D2) as K.
    unfold node_vector, at_ in K. rewrite <- D3 in K. rewrite K. reflexivity.
  - unfold vector_to_local, assert_ in E. destruct (Nat.ltb_spec dim 3); [|lia]. now injection E as ->.
Qed.
Print Assumptions C140_storage_local.
Theorem C140_storage_global : forall dim e n v w c a, (dim < 3)%nat -> len v = (6 * n)%nat -> vector_to_global dim e v = Ok w ->
  (c < 6)%nat -> (a < n)%nat -> cell w (c * n + a)%nat = to_global (axes_of e) (fun c a => cell v (c * n + a)%nat) c a.
Proof.
  intros dim e n v w c a HD L E Hc Ha. destruct e as [e|]; cbn [axes_of option_map to_global].
  - assert (D : (c / 3 = 0 \/ c / 3 = 1)%nat /\ (c mod 3 < 3)%nat /\ c = (3 * (c / 3) + c mod 3)%nat).
    { pose proof (Nat.mod_upper_bound c 3 ltac:(lia)). pose proof (Nat.div_mod c 3 ltac:(lia)).
      assert (c / 3 < 2)%nat by (apply Nat.div_lt_upper_bound; lia). lia. }
    destruct D as (D1 & D2 & D3).
    pose proof (node_global dim (Some e) n HD e v w (3 * (c / 3)) a eq_refl L E ltac:(lia) Ha (c mod 3) D2) as K.
    unfold node_vector, at_ in K. rewrite <- D3 in K. rewrite K. reflexivity.
  - unfold vector_to_global, assert_ in E. destruct (Nat.ltb_spec dim 3); [|lia]. now injection E as ->.
Qed.
Print Assumptions C140_storage_global.
Example C140_storage_case : exists w, vector_to_local 1 None (mkArr 12 INR) = Ok w /\ cell w (1 * 2 + 1)%nat = 3.
Proof. eexists. split; [reflexivity|]. cbn. lra. Qed.
