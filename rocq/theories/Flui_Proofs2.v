(** Proofs about the fluxes and their Jacobians. *)
From Coq Require Import List Arith Bool Reals Lra Lia.
From Verif Require Import Base RBool Stre_Proofs Stre_Proofs2 Flui_Model Flui_Spec Flui_Proofs.
Import ListNotations.
Open Scope R_scope.

Definition get_ok {A} (dflt : A) (o : outcome A) : A := match o with Ok a => a | Fault _ => dflt end.
(** The relations between the parts of a state. *)
Record state (d : nat) (cp cv : R) (s : prim) : Prop := mkState {
  st_k : p_k s = (1/2) * (p_u1 s * p_u1 s + p_u2 s * p_u2 s + p_u3 s * p_u3 s);
  st_T : p_T s = (p_e s - p_k s) / cv;
  st_p : p_p s = (cp - cv) * p_T s * p_rho s;
  st_2 : (d <= 1)%nat -> p_u2 s = 0;
  st_3 : (d <= 2)%nat -> p_u3 s = 0 }.
Lemma state_of d cp cv visc U : state d cp cv (prim_of d cp cv visc U).
Proof.
  split; try reflexivity; cbn; intros H.
  - destruct d as [|[|]]; auto; lia.
  - destruct d as [|[|[|]]]; auto; lia.
Qed.
(** The derivatives of the parts of a state along a family. *)
Record moves (d : nat) (cp cv : R) (sp : R -> prim) (s0 : R) (V : vec) (q : pert) : Prop := mkMoves {
  mv_rho : derivable_pt_lim (fun t => p_rho (sp t)) s0 (d_rho q);
  mv_u1 : derivable_pt_lim (fun t => p_u1 (sp t)) s0 (d_u1 q);
  mv_u2 : derivable_pt_lim (fun t => p_u2 (sp t)) s0 (d_u2 q);
  mv_u3 : derivable_pt_lim (fun t => p_u3 (sp t)) s0 (d_u3 q);
  mv_k : derivable_pt_lim (fun t => p_k (sp t)) s0 (d_k q);
  mv_e : derivable_pt_lim (fun t => p_e (sp t)) s0 (d_e q);
  mv_T : derivable_pt_lim (fun t => p_T (sp t)) s0 (d_T q);
  mv_p : derivable_pt_lim (fun t => p_p (sp t)) s0 (d_p q);
  dv_rho : d_rho q = V 0%nat;
  dv_u1 : d_u1 q = (V 1%nat - V 0%nat * p_u1 (sp s0)) / p_rho (sp s0);
  dv_u2 : d_u2 q = if Nat.ltb 1 d then (V 2%nat - V 0%nat * p_u2 (sp s0)) / p_rho (sp s0) else 0;
  dv_u3 : d_u3 q = if Nat.ltb 2 d then (V 3%nat - V 0%nat * p_u3 (sp s0)) / p_rho (sp s0) else 0;
  dv_k : d_k q = p_u1 (sp s0) * d_u1 q + (if Nat.ltb 1 d then p_u2 (sp s0) * d_u2 q else 0) + (if Nat.ltb 2 d then p_u3 (sp s0) * d_u3 q else 0);
  dv_e : d_e q = (V (d + 1)%nat - V 0%nat * p_e (sp s0)) / p_rho (sp s0);
  dv_T : d_T q = (d_e q - d_k q) / cv;
  dv_p : d_p q = (cp - cv) * (d_T q * p_rho (sp s0) + p_T (sp s0) * V 0%nat) }.
Lemma moves_of d cp cv visc U s0 V : valid_dim d -> follows U s0 V -> U s0 0%nat <> 0 -> cv <> 0 ->
  moves d cp cv (fun t => prim_of d cp cv visc (U t)) s0 V (pert_of d cp cv visc (prim_of d cp cv visc (U s0)) V).
Proof.
  intros D F R C. split; try reflexivity; [apply path_rho|apply path_u1|apply path_u2|apply path_u3|apply path_k|apply path_e|apply path_T|apply path_p]; auto.
Qed.

(** ** Advection flux *)
Definition flux_fn (d c : nat) (s : prim) : vec := get_ok (fun _ => 0) (adv_flux d c s).
Definition adv_jac_fn (d c : nat) (R0 cv gm : R) (s : prim) : mx := get_ok mx0 (adv_jac d c R0 cv gm s).
Lemma adv_flux_safe d c s : valid_dim d -> (c < d)%nat -> adv_flux d c s = Ok (flux_fn d c s).
Proof. intros D C. dims D; destruct c as [|[|[|]]]; try lia; reflexivity. Qed.
Lemma adv_jac_safe d c R0 cv gm s : valid_dim d -> (c < d)%nat -> adv_jac d c R0 cv gm s = Ok (adv_jac_fn d c R0 cv gm s).
Proof. intros D C. dims D; destruct c as [|[|[|]]]; try lia; reflexivity. Qed.

Ltac below := match goal with
  | |- forall i, (i < 3)%nat -> _ => apply below_3
  | |- forall i, (i < 4)%nat -> _ => apply below_4
  | |- forall i, (i < 5)%nat -> _ => apply below_5 end.
(** Compute entries of matrices and vectors at literal indices. *)
Ltac ev := lazy [flux_fn adv_jac_fn get_ok adv_flux adv_jac writes vwrites mput vput W Z1 if3 if2 app Nat.ltb Nat.leb Nat.eqb andb Nat.add Nat.sub mx0 mvec mmul sum bind].
Ltac ev_in H := lazy [flux_fn adv_jac_fn get_ok adv_flux adv_jac writes vwrites mput vput W Z1 if3 if2 app Nat.ltb Nat.leb Nat.eqb andb Nat.add Nat.sub mx0 mvec mmul sum bind] in H.

Lemma adv_jac_ok d c cp cv sp s0 V q : valid_dim d -> (c < d)%nat -> p_rho (sp s0) <> 0 -> cv <> 0 ->
  state d cp cv (sp s0) -> moves d cp cv sp s0 V q ->
  forall i, (i < 2 + d)%nat -> derivable_pt_lim (fun t => flux_fn d c (sp t) i) s0 (mvec (2 + d) (adv_jac_fn d c (cp - cv) cv (cp / cv) (sp s0)) V i).
Proof.
  intros D C RH CV S M. destruct S as [SK ST SP S2 S3]. destruct M as [M1 M2 M3 M4 M5 M6 M7 M8 D1 D2 D3 D4 D5 D6 D7 D8].
  dims D; destruct c as [|[|[|]]]; try lia; cbn [Nat.add] in *; below.
  all: ev; eapply deriv_eq; [|dd]; try rewrite S3 in * by lia; try rewrite S2 in * by lia;
    rewrite ?D8, ?D7, ?D6, ?D5, ?D4, ?D3, ?D2, ?D1, ?SP, ?ST, ?SK; cbn [Nat.ltb Nat.leb]; try field; auto.
Qed.
