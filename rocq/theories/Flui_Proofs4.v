(** Proofs about the entropy variables and the eigenvectors. *)
From Coq Require Import List Arith Bool Reals Lra Lia Nsatz.
From Verif Require Import Base RBool Stre_Proofs Stre_Proofs2 Flui_Model Flui_Spec Flui_Proofs Flui_Proofs2 Flui_Proofs3.
Import ListNotations.
Open Scope R_scope.

Definition duv_fn (d : nat) (cv gm : R) (s : prim) : mx := get_ok mx0 (dU_dV d cv gm s).
Definition dvu_fn (d : nat) (cv gm : R) (s : prim) : mx := get_ok mx0 (dV_dU d cv gm s).
Ltac ev4 := lazy [duv_fn dvu_fn dU_dV dV_dU mscale dcp_fn dpc_fn dcons_dprim dprim_dcons prim_vec flux_fn adv_jac_fn get_ok adv_flux adv_jac adv_jac_sens writes vwrites mput vput W Z1 if3 if2 app Nat.ltb Nat.leb Nat.eqb andb Nat.add Nat.sub mx0 mvec mmul sum bind].
Lemma duv_safe d cv gm s : valid_dim d -> dU_dV d cv gm s = Ok (duv_fn d cv gm s).
Proof. intros D. dims D; reflexivity. Qed.
Lemma dvu_safe d cv gm s : valid_dim d -> dV_dU d cv gm s = Ok (dvu_fn d cv gm s).
Proof. intros D. dims D; reflexivity. Qed.
Lemma duv_sym d cv gm s : valid_dim d -> symmetric (2 + d) (duv_fn d cv gm s) /\ symmetric (2 + d) (dvu_fn d cv gm s).
Proof.
  intros D. unfold symmetric. split; dims D; cbn [Nat.add] in *; intros i j Hi Hj; revert i Hi; below; revert j Hj; below; ev4; reflexivity.
Qed.
Lemma duv_dvu d cp cv s : valid_dim d -> p_rho s <> 0 -> cv <> 0 -> cp <> cv -> p_T s <> 0 -> state d cp cv s ->
  identity (2 + d) (mmul (2 + d) (duv_fn d cv (cp / cv) s) (dvu_fn d cv (cp / cv) s)) /\
  identity (2 + d) (mmul (2 + d) (dvu_fn d cv (cp / cv) s) (duv_fn d cv (cp / cv) s)).
Proof.
  intros D RH CV CP TT [SK ST SP S2 S3]. unfold identity.
  assert (EE : p_e s = cv * p_T s + p_k s) by (rewrite ST; field; auto). clear ST SP.
  assert (G : cp - cv <> 0) by lra.
  split; dims D; cbn [Nat.add] in *; intros i j Hi Hj; revert i Hi; below; revert j Hj; below; ev4; try rewrite S3 in * by lia; try rewrite S2 in * by lia;
   rewrite ?EE, ?SK; field; auto.
Qed.
(** The entropy variables. *)
Lemma dvu_ok d cp cv sp s0 V q : valid_dim d -> p_rho (sp s0) <> 0 -> cv <> 0 -> cp <> cv -> p_T (sp s0) <> 0 -> state d cp cv (sp s0) -> moves d cp cv sp s0 V q ->
  derivable_pt_lim (fun t => p_entropy (sp t)) s0 (d_p q / p_p (sp s0) - cp / cv * d_rho q / p_rho (sp s0)) ->
  forall i, (i < 2 + d)%nat -> derivable_pt_lim (fun t => entropy_vars d (cp / cv) cv (sp t) i) s0 (mvec (2 + d) (dvu_fn d cv (cp / cv) (sp s0)) V i).
Proof.
  intros D RH CV CP TT S M EN. destruct S as [SK ST SP S2 S3]. destruct M as [M1 M2 M3 M4 M5 M6 M7 M8 D1 D2 D3 D4 D5 D6 D7 D8].
  assert (EE : p_e (sp s0) = cv * p_T (sp s0) + p_k (sp s0)) by (rewrite ST; field; auto). clear ST.
  assert (G : cp - cv <> 0) by lra.
  dims D; cbn [Nat.add] in *; below.
  all: unfold entropy_vars; cbn [Nat.eqb Nat.sub Nat.add]; ev4; eapply deriv_eq; [|dd; auto]; try (apply Rmult_integral_contrapositive; split; auto);
    rewrite ?D8, ?D7, ?D6, ?D5, ?D4, ?D3, ?D2, ?D1, ?SP, ?EE, ?SK; cbn [Nat.ltb Nat.leb]; try rewrite S3 in * by lia; try rewrite S2 in * by lia; unfold Rsqr; try field; auto.
Qed.
