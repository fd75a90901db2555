From Coq Require Import Reals Lra.
From Coquelicot Require Import Coquelicot.
From Coq Require Import List Arith Bool Lia.
From Verif Require Import Base BaseLemmas Sens_Spec Sens_Proofs Sens_Proofs2 Heat_Proofs Solid_Model Solid_Spec Solid_Proofs2 Dof6_Model Beam_Model Beam_Spec
  Dof6_Proofs Beam_Proofs Beam_Proofs2 Plate_Model Plate_Spec Plate_Proofs Plate_Proofs2 Plate_Proofs3 Plate_Proofs4 Rec_Model Rec_Spec Rec_Proofs Rec_Proofs2.
Import ListNotations.
Open Scope R_scope.

Section PlateP.
Variable n : nat.
Variable nl : bool.
Variable b : plate.
Hypothesis Hfit : pfits b n.
Notation pe := (plate_e nl b n).
Notation ps := (plate_s nl b n).
Notation kap := (curvature b n).

Lemma skin_eq D q k : (k < 2)%nat -> skin_z D q k = height D q k.
Proof. intros H. unfold skin_z, height. destruct k as [|[|k]]; cbn; (lra || lia). Qed.
Lemma pstrain_eq D q k u r : (k < 2)%nat -> (r < 3)%nat -> plate_strain n nl b D q k u r = pe D q k u r.
Proof.
  intros Hk Hr. unfold plate_strain, plate_e, vplus. cbv zeta.
  assert (Hr' : Nat.ltb r 3 = true) by now apply Nat.ltb_lt.
  assert (T : match p_heat D with Some h => minus01 (gl_strain n nl q u) (expansion h q) | None => gl_strain n nl q u end r =
    membrane nl false n q u r - (if Nat.ltb r 2 then free_strain (p_heat D) q else 0)).
  { rewrite <- (gl_eq n nl q u r Hr). destruct (p_heat D) as [h|]; cbn [free_strain].
    - unfold minus01, expansion. destruct r as [|[|r]]; cbn; lra.
    - destruct r as [|[|r]]; cbn; lra. }
  destruct (pbends b) eqn:Eb.
  - rewrite (vm_bend_z n b Hfit), Hr', skin_eq by exact Hk. revert T. destruct nl; intros T; cbn [andb].
    + rewrite T, vk_eq. lra.
    + rewrite T. lra.
  - rewrite andb_false_r, T, (no_k n b Hfit Eb). lra.
Qed.
Lemma pstress_eq D q k u r : (k < 2)%nat -> mv 3 (p_C D q) (plate_strain n nl b D q k u) r = ps D q k u r.
Proof. intros Hk. unfold mv, plate_s. apply sum_ext. intros i Hi. now rewrite pstrain_eq. Qed.

Notation deps := (Plate_Proofs2.deps n nl b).
(** derivative along v *)
Definition dpe (D : pdat) (q : qpt) (k : nat) (u v : dofs) (r : nat) : R := deps q u v r + height D q k * kap q v r.
Lemma pdstrain_eq D q k u v r : (k < 2)%nat -> (r < 3)%nat -> vm n (plate_dstrain n nl b D q k u) v r = dpe D q k u v r.
Proof.
  intros Hk Hr. unfold plate_dstrain, dpe, Plate_Proofs2.deps. cbv zeta.
  assert (Hr' : Nat.ltb r 3 = true) by now apply Nat.ltb_lt.
  assert (T : vm n (if nl return rmat then rplus (rplus (lm 3 (b_lin q) eye) (lm 2 (b_x nl q) (mat_x n nl q u))) (lm 2 (b_y nl q) (mat_y n nl q u)) else lm 3 (b_lin q) eye) v r
     = Plate_Proofs2.dlin n q v r + Plate_Proofs2.dgl n nl q u v r).
  { unfold Plate_Proofs2.dlin, Plate_Proofs2.dgl, Plate_Proofs2.sym2. destruct nl eqn:E.
    - rewrite !vm_rplus, vm_eye, !vm_lm by exact Hr. cbn [sum].
      rewrite !(mat_x_eq n true), !(mat_y_eq n true), !(vm_x n true), !(vm_y n true), vm_lin by lia. cbn [flag].
      destruct r as [|[|[|r]]]; [| | |lia]; ring.
    - rewrite vm_eye, vm_lin by exact Hr. cbn [flag]. destruct r as [|[|[|r]]]; [| | |lia]; ring. }
  destruct (pbends b) eqn:Eb.
  - rewrite vm_rplus, vm_eye, (vm_bend_z n b Hfit), Hr', skin_eq by assumption.
    unfold Plate_Proofs2.dvk. rewrite Eb. revert T. destruct nl; intros T; cbn [andb flag].
    + rewrite vm_rplus, T, vm_lm. cbn [sum]. rewrite !vm_vk, !vk_mat_eq. unfold Plate_Proofs2.sym2. destruct r as [|[|[|r]]]; [| | |lia]; ring.
    + rewrite T. ring.
  - rewrite T, (no_k n b Hfit Eb). unfold Plate_Proofs2.dvk. rewrite Eb, andb_false_r. cbn [flag]. ring.
Qed.

Section Der.
Variable t0 : R.
Variable u : R -> dofs.
Variable du : dofs.
Hypothesis Hu : history6 n t0 u du.
Definition dheat (D D' : pdat) (q : qpt) (r : nat) : R :=
  if Nat.ltb r 2 then match p_heat D, p_heat D' with Some h, Some h' => dexpansion h h' q | _, _ => 0 end else 0.
Lemma der_pe_D (D : R -> pdat) D' q k r : (k < 2)%nat -> pdat_der D D' t0 q ->
  is_derive (fun s => pe (D s) q k (u s) r) t0 (dpe (D t0) q k (u t0) du r + height D' q k * kap q (u t0) r - dheat (D t0) D' q r).
Proof.
  intros Hk (HC & HH & Hh & Ho). unfold plate_e, dpe, dheat.
  assert (Cz : is_derive (fun s => height (D s) q k) t0 (height D' q k)).
  { unfold height. destruct (Nat.eqb k 0).
    - eapply (der_add t0 (fun s => p_off (D s) q) (fun s => p_h (D s) q / 2) _ (p_h D' q / 2)); [exact Ho| |reflexivity].
      apply (der_fun (fun s => 1/2 * p_h (D s) q)); [intros; lra|]. eapply der_sc; [exact Hh|lra].
    - eapply (der_add t0 (fun s => p_off (D s) q) (fun s => - (p_h (D s) q / 2)) _ (- (p_h D' q / 2))); [exact Ho| |reflexivity].
      apply (der_fun (fun s => - (1/2) * p_h (D s) q)); [intros; lra|]. eapply der_sc; [exact Hh|lra]. }
  apply (der_eq _ _ (deps q (u t0) du r + (height D' q k * kap q (u t0) r + height (D t0) q k * kap q du r)
     - (if Nat.ltb r 2 then match p_heat (D t0), p_heat D' with Some h, Some h' => dexpansion h h' q | _, _ => 0 end else 0))); [|lra].
  apply (is_derive_minus (fun s => membrane nl (nl && pbends b) n q (u s) r + height (D s) q k * kap q (u s) r) (fun s => if Nat.ltb r 2 then free_strain (p_heat (D s)) q else 0)).
  - apply (is_derive_plus (fun s => membrane nl (nl && pbends b) n q (u s) r) (fun s => height (D s) q k * kap q (u s) r)).
    + exact (der_eps n nl b u du t0 Hu q r).
    + eapply (der_mul t0 (fun s => height (D s) q k) (fun s => kap q (u s) r)); [exact Cz|exact (der_kap n b Hfit u du t0 Hu q r)|reflexivity].
  - destruct (Nat.ltb r 2); [now apply (der_free (fun s => p_heat (D s)))|apply der_const].
Qed.
Lemma der_ps_D (D : R -> pdat) D' q k r e' : (k < 2)%nat -> (r < 3)%nat -> mat_der 3 (fun s => p_C (D s) q) (p_C D' q) t0 ->
  (forall i, (i < 3)%nat -> is_derive (fun s => pe (D s) q k (u s) i) t0 (e' i)) ->
  is_derive (fun s => ps (D s) q k (u s) r) t0
    (sum 3 (fun i => p_C D' q r i * pe (D t0) q k (u t0) i + p_C (D t0) q r i * e' i)).
Proof.
  intros Hk Hr HC He. unfold plate_s. apply (der_sum 3 (fun i s => p_C (D s) q r i * pe (D s) q k (u s) i)). intros i Hi.
  eapply (der_mul t0 (fun s => p_C (D s) q r i) (fun s => pe (D s) q k (u s) i)); [apply HC; assumption|apply He; assumption|reflexivity].
Qed.
End Der.

Lemma pconst_der (D : pdat) t0 q : pdat_der (fun _ => D) (mkPd (fun _ _ _ => 0) (match p_heat D with Some _ => Some (mkH (fun _ => 0) (fun _ => 0) (fun _ => 0)) | None => None end) (fun _ => 0) (fun _ => 0)) t0 q.
Proof.
  unfold pdat_der. cbn. split; [intros i l _ _; apply der_const|]. split.
  - destruct (p_heat D) as [h|].
    + right. exists (fun _ => h), (mkH (fun _ => 0) (fun _ => 0) (fun _ => 0)). cbn. split; [reflexivity|]. split; [reflexivity|].
      split; [apply der_const|]. split; apply der_const.
    + left. auto.
  - split; apply der_const.
Qed.
Lemma der_pe (u : R -> dofs) du t0 D q k r : (k < 2)%nat -> history6 n t0 u du -> is_derive (fun s => pe D q k (u s) r) t0 (dpe D q k (u t0) du r).
Proof.
  intros Hk Hu. eapply der_eq; [exact (der_pe_D t0 u du Hu (fun _ => D) _ q k r Hk (pconst_der D t0 q))|].
  cbn. unfold height, dheat. cbn. destruct (p_heat D) as [h|]; cbn; unfold dexpansion; cbn; destruct (Nat.eqb k 0), r as [|[|r]]; cbn; lra.
Qed.
Lemma der_ps (u : R -> dofs) du t0 D q k r : (k < 2)%nat -> (r < 3)%nat -> history6 n t0 u du ->
  is_derive (fun s => ps D q k (u s) r) t0 (sum 3 (fun i => p_C D q r i * dpe D q k (u t0) du i)).
Proof.
  intros Hk Hr Hu. eapply der_eq; [exact (der_ps_D t0 u (fun _ => D) _ q k r _ Hk Hr (proj1 (pconst_der D t0 q)) (fun i _ => der_pe u du t0 D q k i Hk Hu))|].
  cbn. lra.
Qed.
Lemma pdp_eq D D' q k u us r : (k < 2)%nat -> (r < 3)%nat ->
  let e' := fun r => dpe D q k u us r + height D' q k * kap q u r - dheat D D' q r in
  snd (plate_dp n nl b D D' q k u us) r = e' r /\
  fst (plate_dp n nl b D D' q k u us) r = sum 3 (fun i => p_C D' q r i * pe D q k u i + p_C D q r i * e' i).
Proof.
  intros Hk Hr. cbv zeta. unfold plate_dp. cbn [fst snd].
  set (E := if pbends b then vplus (match p_heat D, p_heat D' with Some h, Some h' => minus01 (fun _ => 0) (dexpansion h h' q) | _, _ => fun _ => 0 end) (vm n (pbend_z b q (skin_z D' q k)) u)
     else match p_heat D, p_heat D' with Some h, Some h' => minus01 (fun _ => 0) (dexpansion h h' q) | _, _ => fun _ => 0 end).
  assert (E0 : forall i, (i < 3)%nat -> E i = height D' q k * kap q u i - dheat D D' q i).
  { intros i Hi. assert (Hi' : Nat.ltb i 3 = true) by now apply Nat.ltb_lt. unfold E, dheat. destruct (pbends b) eqn:Eb.
    - unfold vplus. rewrite (vm_bend_z n b Hfit), Hi', skin_eq by exact Hk.
      destruct (p_heat D), (p_heat D'); unfold minus01; destruct i as [|[|i]]; cbn; lra.
    - rewrite (no_k n b Hfit Eb). destruct (p_heat D), (p_heat D'); unfold minus01; destruct i as [|[|i]]; cbn; lra. }
  unfold vplus. split.
  - rewrite E0, pdstrain_eq by assumption. lra.
  - rewrite Plate_Proofs.vm_mm. unfold mv. rewrite <- !sum_plus. apply sum_ext. intros i Hi.
    rewrite E0, pdstrain_eq, pstrain_eq by assumption. lra.
Qed.
End PlateP.
