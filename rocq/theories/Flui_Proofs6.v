(** Proofs about the diffusion fluxes and the moving wall. *)
From Coq Require Import List Arith Bool Reals Lra Lia.
From Verif Require Import Base RBool Stre_Proofs Stre_Proofs2 Flui_Model Flui_Spec Flui_Proofs Flui_Proofs2 Flui_Proofs3.
Import ListNotations.
Open Scope R_scope.

(** ** Pressure and wall *)
Definition dpx_fn (d : nat) (R0 cv : R) (s : prim) : vec := get_ok (fun _ => 0) (dpdX d R0 cv s).
Definition wall_fn (d : nat) (R0 cv : R) (s : prim) (w : R) (nv dn : vec) : mx := get_ok mx0 (wall_jac d R0 cv s w nv dn).
Ltac ev6 := lazy [dpx_fn dpdX wall_flux prim_vec flux_fn adv_jac_fn get_ok adv_flux adv_jac adv_jac_sens writes vwrites mput vput W Z1 if3 if2 app Nat.ltb Nat.leb Nat.eqb andb Nat.add Nat.sub mx0 mvec mmul sum bind].
Lemma dpx_safe d R0 cv s : valid_dim d -> dpdX d R0 cv s = Ok (dpx_fn d R0 cv s).
Proof. intros D. dims D; reflexivity. Qed.
Lemma wall_safe d R0 cv s w nv dn : valid_dim d -> wall_jac d R0 cv s w nv dn = Ok (wall_fn d R0 cv s w nv dn).
Proof. intros D. unfold wall_fn, wall_jac. dims D; cbn [writes bind if3 if2 app Nat.ltb Nat.leb andb W Nat.add Nat.sub]; destruct (rltb 0 _); reflexivity. Qed.
Lemma dpx_ok d cp cv sp s0 V q : valid_dim d -> p_rho (sp s0) <> 0 -> cv <> 0 -> state d cp cv (sp s0) -> moves d cp cv sp s0 V q ->
  derivable_pt_lim (fun t => p_p (sp t)) s0 (sum (2 + d) (fun i => dpx_fn d (cp - cv) cv (sp s0) i * V i)).
Proof.
  intros D RH CV S M. destruct S as [SK ST SP S2 S3]. destruct M as [M1 M2 M3 M4 M5 M6 M7 M8 D1 D2 D3 D4 D5 D6 D7 D8].
  eapply deriv_eq; [|exact M8]. dims D; ev6; rewrite D8, D7, D6, D5, D4, D3, D2; cbn [Nat.ltb Nat.leb]; cbn [Nat.add];
   try rewrite S3 in * by lia; try rewrite S2 in * by lia; rewrite ?ST, ?SK; field; auto.
Qed.
(** The matrix without the change of the normal. *)
Lemma sum_sq_zero d f : ~ 0 < sum d (fun i => f i * f i) -> forall i, (i < d)%nat -> f i = 0.
Proof.
  intros H.
  assert (P : forall n, 0 <= sum n (fun i => f i * f i)) by (induction n; cbn; [lra|pose proof (Rle_0_sqr (f n)); unfold Rsqr in *; lra]).
  assert (Q : forall n, sum n (fun i => f i * f i) <= 0 -> forall i, (i < n)%nat -> f i = 0).
  { induction n; intros L i Hi; [lia|]. cbn in L. pose proof (P n). pose proof (Rle_0_sqr (f n)). unfold Rsqr in *.
    destruct (Nat.eq_dec i n) as [->|]; [|apply IHn; [lra|lia]]. assert (f n * f n = 0) by lra. apply Rmult_integral in H2. tauto. }
  apply Q. lra.
Qed.
Lemma wall_ok d cp cv sp s0 V q w nv dn : valid_dim d -> p_rho (sp s0) <> 0 -> cv <> 0 -> state d cp cv (sp s0) -> moves d cp cv sp s0 V q ->
  forall i, (i < 2 + d)%nat -> derivable_pt_lim (fun t => wall_flux d w nv dn (sp t) i) s0
    (mvec (2 + d) (wall_fn d (cp - cv) cv (sp s0) (w - sum d (fun i => match i with 0%nat => p_u1 (sp s0) | 1%nat => p_u2 (sp s0) | _ => p_u3 (sp s0) end * dn i)) nv dn) V i).
Proof.
  intros D RH CV S M. destruct S as [SK ST SP S2 S3]. destruct M as [M1 M2 M3 M4 M5 M6 M7 M8 D1 D2 D3 D4 D5 D6 D7 D8].
  unfold wall_fn, wall_jac.
  destruct (rltb 0 (sum d (fun i => dn i * dn i))) eqn:B.
  - clear B. dims D; cbn [Nat.add] in *; below; ev6; (eapply deriv_eq; [|dd]).
    all: try rewrite S3 in * by lia; try rewrite S2 in * by lia; rewrite ?D8, ?D7, ?D6, ?D5, ?D4, ?D3, ?D2, ?D1, ?SP, ?ST, ?SK; cbn [Nat.ltb Nat.leb]; cbn [Nat.add]; try field; auto.
  - apply rltb_false in B. assert (Z : forall i, (i < d)%nat -> dn i = 0) by (apply sum_sq_zero; lra).
    assert (Z0 := Z 0%nat). assert (Z1' := Z 1%nat). assert (Z2 := Z 2%nat). clear Z B.
    dims D; cbn [Nat.add] in *; below; ev6; (eapply deriv_eq; [|dd]).
    all: try rewrite S3 in * by lia; try rewrite S2 in * by lia; try rewrite Z0 by lia; try rewrite Z1' by lia; try rewrite Z2 by lia; rewrite ?D8, ?D7, ?D6, ?D5, ?D4, ?D3, ?D2, ?D1, ?SP, ?ST, ?SK; cbn [Nat.ltb Nat.leb]; cbn [Nat.add]; try field; auto.
Qed.
(** ** Diffusion *)
Definition djp_fn (d f c : nat) (uv : vec) (z : bool) (s : prim) : mx := get_ok mx0 (diff_jac_prim d f c uv z s).
Definition dj_fn (d f c : nat) (cv : R) (s : prim) : mx := get_ok mx0 (diff_jac d f c cv s).
Ltac ev7 := lazy [djp_fn diff_jac_prim dj_fn diff_jac dpc_fn dprim_dcons uvec newton_stress diff_flux diff_tensors tensor_step fold_left seq fst snd get_ok writes vwrites mput vput W Z1 if3 if2 app Nat.ltb Nat.leb Nat.eqb andb Nat.add Nat.sub mx0 mvec mmul sum bind].
Lemma djp_safe d f c uv z s : valid_dim d -> (f < d)%nat -> (c < d)%nat -> diff_jac_prim d f c uv z s = Ok (djp_fn d f c uv z s).
Proof. intros D F C. dims D; destruct f as [|[|[|]]]; try lia; destruct c as [|[|[|]]]; try lia; reflexivity. Qed.
Lemma dj_safe d f c cv s : valid_dim d -> (f < d)%nat -> (c < d)%nat -> diff_jac d f c cv s = Ok (dj_fn d f c cv s).
Proof. intros D F C. dims D; destruct f as [|[|[|]]]; try lia; destruct c as [|[|[|]]]; try lia; reflexivity. Qed.
Lemma dj_chain d f c cp cv s : valid_dim d -> (f < d)%nat -> (c < d)%nat -> p_rho s <> 0 -> cv <> 0 -> state d cp cv s ->
  forall i j, (i < 2 + d)%nat -> (j < 2 + d)%nat -> dj_fn d f c cv s i j = mmul (2 + d) (djp_fn d f c (uvec d s) false s) (dpc_fn d cv s) i j.
Proof.
  intros D F C RH CV [SK ST SP S2 S3].
  dims D; destruct f as [|[|[|]]]; try lia; destruct c as [|[|[|]]]; try lia; cbn [Nat.add] in *; intros i j Hi Hj; revert i Hi; below; revert j Hj; below.
  all: ev7; try rewrite S3 in * by lia; try rewrite S2 in * by lia; rewrite ?SK; field; auto.
Qed.
(** The computed tensors: Newtonian stress and gradient of the temperature. *)
Lemma tensors_ok d s dp dU : valid_dim d -> forall i j, (i < d)%nat -> (j < d)%nat ->
  fst (diff_tensors d s dp dU) i j = newton_stress d (p_mu s) (p_lambda s) (fun a b => mvec (2 + d) dp (dU a) (b + 1)%nat) i j.
Proof.
  intros D i j Hi Hj.
  assert (G : forall g : nat -> vec, fold_left (fun t a => tensor_step d a (p_mu s) (p_lambda s) (g a) t) (seq 0 d) mx0 i j =
     p_mu s * (g i (j + 1)%nat + g j (i + 1)%nat) + (if Nat.eqb i j then p_lambda s * sum d (fun k => g k (k + 1)%nat) else 0)).
  { intros g. dims D; destruct i as [|[|[|]]]; try lia; destruct j as [|[|[|]]]; try lia; ev7; ring. }
  exact (G (fun a => mvec (2 + d) dp (dU a))).
Qed.
Lemma tensors_T d s dp dU i : (i < d)%nat -> snd (diff_tensors d s dp dU) i = mvec (2 + d) dp (dU i) (d + 1)%nat.
Proof. intros H. unfold diff_tensors. cbn [snd]. apply Nat.ltb_lt in H. rewrite H. reflexivity. Qed.
(** The flux is the sum of the matrices times the gradients. *)
Lemma diff_flux_ok d f cp cv s dU : valid_dim d -> (f < d)%nat -> p_rho s <> 0 -> cv <> 0 -> state d cp cv s ->
  forall i, (i < 2 + d)%nat ->
  diff_flux d f s (fst (diff_tensors d s (dpc_fn d cv s) dU)) (snd (diff_tensors d s (dpc_fn d cv s) dU)) i =
  sum d (fun c => mvec (2 + d) (dj_fn d f c cv s) (dU c) i).
Proof.
  intros D F RH CV [SK ST SP S2 S3].
  dims D; destruct f as [|[|[|]]]; try lia; cbn [Nat.add] in *; below.
  all: ev7; try rewrite S3 in * by lia; try rewrite S2 in * by lia; rewrite ?SK; field; auto.
Qed.
