From Coq Require Import Reals Lra.
From Coquelicot Require Import Coquelicot.
From Coq Require Import List Arith Bool Lia.
From Verif Require Import Base BaseLemmas Sens_Spec Sens_Proofs Sens_Proofs2 Heat_Proofs Solid_Model Solid_Spec Solid_Proofs2 Dof6_Model Beam_Model Beam_Spec
  Dof6_Proofs Beam_Proofs Beam_Proofs2 Plate_Model Plate_Spec Plate_Proofs Rec_Model Rec_Spec Rec_Proofs.
Import ListNotations.
Open Scope R_scope.

Lemma der_free (H : R -> option heat) H' t0 q : heat_der H H' t0 q ->
  is_derive (fun s => free_strain (H s) q) t0 (match H t0, H' with Some h, Some h' => dexpansion h h' q | _, _ => 0 end).
Proof.
  intros [[-> HN]|(h & h' & -> & HS & D1 & D2 & D3)].
  - rewrite HN. apply (der_fun (fun _ => 0)); [intros s; now rewrite HN|]. apply der_const.
  - rewrite HS. apply (der_fun (fun s => h_alpha (h s) q * (h_T (h s) q - h_ref (h s) q))); [intros s; now rewrite HS|].
    unfold dexpansion. eapply (der_mul t0 (fun s => h_alpha (h s) q) (fun s => h_T (h s) q - h_ref (h s) q) _ (h_T h' q - h_ref h' q)).
    + exact D3.
    + apply (is_derive_minus (fun s => h_T (h s) q) (fun s => h_ref (h s) q)); assumption.
    + ring.
Qed.

Section BeamP.
Variable n : nat.
Variable vk : bool.
Variable b : bending.
Hypothesis Hfit : fits b n.
Notation be := (beam_e vk b n).
Notation bs := (beam_s vk b n).

Lemma at_y_eq D q k : (k < 4)%nat -> at_y D q k = corner_y D q k.
Proof. intros H. unfold at_y, corner_y. destruct k as [|[|[|[|k]]]]; cbn; (lra || lia). Qed.
Lemma at_z_eq D q k : (k < 4)%nat -> at_z D q k = corner_z D q k.
Proof. intros H. unfold at_z, corner_z. destruct k as [|[|[|[|k]]]]; cbn; (lra || lia). Qed.
Lemma nob q u : bends b = false -> curv_y b n q u = 0 /\ curv_z b n q u = 0.
Proof. destruct b; cbn; intros H; (discriminate || auto). Qed.

Lemma strain_eq D q k u : (k < 4)%nat -> beam_strain n vk b D q k u 0 = be D q k u /\ beam_strain n vk b D q k u 1 = twist n q u.
Proof.
  intros Hk. unfold beam_strain, bend_strain, beam_e, axial, vplus. cbv zeta.
  destruct (bends b) eqn:Eb.
  - rewrite !(vm_yz_y n b Hfit), !(vm_yz_z n b Hfit), at_y_eq, at_z_eq by exact Hk.
    destruct (b_heat D) as [h|]; destruct vk; cbn [andb vk_strain minus0 free_strain];
      rewrite ?vm_direct; unfold expansion, twist, Beam_Model.slope, dx; split; ring.
  - destruct (nob q u Eb) as [-> ->]. rewrite andb_false_r.
    destruct (b_heat D) as [h|]; cbn [minus0 free_strain]; rewrite ?vm_direct; unfold expansion, twist; split; ring.
Qed.
(** the derivative along v *)
Definition de (D : bdat) (q : qpt) (k : nat) (u v : dofs) : R :=
  dx n q v 0 + (if (vk && bends b)%bool then dx n q u 1 * dx n q v 1 + dx n q u 2 * dx n q v 2 else 0)
  + corner_y D q k * curv_y b n q v + corner_z D q k * curv_z b n q v.
Lemma dstrain_eq D q k u v : (k < 4)%nat -> vm n (beam_dstrain n vk b D q k u) v 0 = de D q k u v /\ vm n (beam_dstrain n vk b D q k u) v 1 = twist n q v.
Proof.
  intros Hk. unfold beam_dstrain, de. cbv zeta. destruct (bends b) eqn:Eb.
  - destruct vk; cbn [andb]; rewrite !vm_rplus, !vm_eye by lia; rewrite ?vm_lm; cbn [sum at00];
      rewrite !(vm_yz_y n b Hfit), !(vm_yz_z n b Hfit), at_y_eq, at_z_eq by exact Hk; rewrite ?vm_direct, ?vm_vkv, ?vm_vkw; unfold twist, Beam_Model.slope, dx; split; ring.
  - destruct (nob q v Eb) as [-> ->]. rewrite andb_false_r, !vm_eye by lia. rewrite !vm_direct. unfold twist. split; ring.
Qed.

Section Der.
Variable t0 : R.
Variable u : R -> dofs.
Variable du : dofs.
Hypothesis Hu : history6 n t0 u du.
Lemma der_axial q : is_derive (fun s => axial (vk && bends b) n q (u s)) t0
  (dx n q du 0 + (if (vk && bends b)%bool then dx n q (u t0) 1 * dx n q du 1 + dx n q (u t0) 2 * dx n q du 2 else 0)).
Proof.
  unfold axial. destruct (vk && bends b)%bool.
  - eapply (der_add t0 (fun s => dx n q (u s) 0) (fun s => 1/2 * (dx n q (u s) 1 ^ 2 + dx n q (u s) 2 ^ 2))).
    + apply der_dx; [exact Hu|lia].
    + eapply der_sc; [|reflexivity]. eapply (der_add t0 (fun s => dx n q (u s) 1 ^ 2) (fun s => dx n q (u s) 2 ^ 2)).
      * eapply der_sq; [|reflexivity]. apply der_dx; [exact Hu|lia].
      * eapply der_sq; [|reflexivity]. apply der_dx; [exact Hu|lia].
      * reflexivity.
    + lra.
  - eapply (der_add t0 (fun s => dx n q (u s) 0) (fun _ => 0)); [apply der_dx; [exact Hu|lia]|now apply der_cst|lra].
Qed.
Lemma der_be_D (D : R -> bdat) D' q k : (k < 4)%nat -> bdat_der D D' t0 q ->
  is_derive (fun s => be (D s) q k (u s)) t0
    (de (D t0) q k (u t0) du + corner_y D' q k * curv_y b n q (u t0) + corner_z D' q k * curv_z b n q (u t0)
     - match b_heat (D t0), b_heat D' with Some h, Some h' => dexpansion h h' q | _, _ => 0 end).
Proof.
  intros Hk (HC & HH & Hy & Hz & Hyo & Hzo). unfold beam_e, de.
  assert (Cy : is_derive (fun s => corner_y (D s) q k) t0 (corner_y D' q k)).
  { unfold corner_y. destruct (Nat.even k).
    - eapply (der_add t0 (fun s => b_hy_off (D s) q) (fun s => b_hy (D s) q / 2) _ (b_hy D' q / 2)); [exact Hyo| |reflexivity].
      apply (der_fun (fun s => 1/2 * b_hy (D s) q)); [intros; lra|]. eapply der_sc; [exact Hy|lra].
    - eapply (der_add t0 (fun s => b_hy_off (D s) q) (fun s => - (b_hy (D s) q / 2)) _ (- (b_hy D' q / 2))); [exact Hyo| |reflexivity].
      apply (der_fun (fun s => - (1/2) * b_hy (D s) q)); [intros; lra|]. eapply der_sc; [exact Hy|lra]. }
  assert (Cz : is_derive (fun s => corner_z (D s) q k) t0 (corner_z D' q k)).
  { unfold corner_z. destruct (Nat.ltb k 2).
    - eapply (der_add t0 (fun s => b_hz_off (D s) q) (fun s => b_hz (D s) q / 2) _ (b_hz D' q / 2)); [exact Hzo| |reflexivity].
      apply (der_fun (fun s => 1/2 * b_hz (D s) q)); [intros; lra|]. eapply der_sc; [exact Hz|lra].
    - eapply (der_add t0 (fun s => b_hz_off (D s) q) (fun s => - (b_hz (D s) q / 2)) _ (- (b_hz D' q / 2))); [exact Hzo| |reflexivity].
      apply (der_fun (fun s => - (1/2) * b_hz (D s) q)); [intros; lra|]. eapply der_sc; [exact Hz|lra]. }
  apply (der_eq _ _ (dx n q du 0 + (if (vk && bends b)%bool then dx n q (u t0) 1 * dx n q du 1 + dx n q (u t0) 2 * dx n q du 2 else 0)
     + (corner_y D' q k * curv_y b n q (u t0) + corner_y (D t0) q k * curv_y b n q du)
     + (corner_z D' q k * curv_z b n q (u t0) + corner_z (D t0) q k * curv_z b n q du)
     - match b_heat (D t0), b_heat D' with Some h, Some h' => dexpansion h h' q | _, _ => 0 end)); [|lra].
  apply (is_derive_minus (fun s => axial (vk && bends b) n q (u s) + corner_y (D s) q k * curv_y b n q (u s) + corner_z (D s) q k * curv_z b n q (u s)) (fun s => free_strain (b_heat (D s)) q)).
  2: now apply (der_free (fun s => b_heat (D s))).
  apply (is_derive_plus (fun s => axial (vk && bends b) n q (u s) + corner_y (D s) q k * curv_y b n q (u s)) (fun s => corner_z (D s) q k * curv_z b n q (u s))).
  - apply (is_derive_plus (fun s => axial (vk && bends b) n q (u s)) (fun s => corner_y (D s) q k * curv_y b n q (u s))); [apply der_axial|].
    eapply (der_mul t0 (fun s => corner_y (D s) q k) (fun s => curv_y b n q (u s))); [exact Cy|exact (der_ky n b Hfit u du t0 Hu q)|reflexivity].
  - eapply (der_mul t0 (fun s => corner_z (D s) q k) (fun s => curv_z b n q (u s))); [exact Cz|exact (der_kz n b Hfit u du t0 Hu q)|reflexivity].
Qed.
Lemma der_bs_D (D : R -> bdat) D' q k e' : (k < 4)%nat -> mat_der 2 (fun s => b_C (D s) q) (b_C D' q) t0 ->
  is_derive (fun s => be (D s) q k (u s)) t0 e' ->
  is_derive (fun s => bs (D s) q k (u s)) t0
    (b_C D' q 0%nat 0%nat * be (D t0) q k (u t0) + b_C (D t0) q 0%nat 0%nat * e' + b_C D' q 0%nat 1%nat * twist n q (u t0) + b_C (D t0) q 0%nat 1%nat * twist n q du).
Proof.
  intros Hk HC He. unfold beam_s.
  apply (der_eq _ _ ((b_C D' q 0%nat 0%nat * be (D t0) q k (u t0) + b_C (D t0) q 0%nat 0%nat * e') + (b_C D' q 0%nat 1%nat * twist n q (u t0) + b_C (D t0) q 0%nat 1%nat * twist n q du))); [|lra].
  apply (is_derive_plus (fun s => b_C (D s) q 0%nat 0%nat * be (D s) q k (u s)) (fun s => b_C (D s) q 0%nat 1%nat * twist n q (u s))).
  - eapply (der_mul t0 (fun s => b_C (D s) q 0%nat 0%nat) (fun s => be (D s) q k (u s))); [apply HC; lia|exact He|reflexivity].
  - eapply (der_mul t0 (fun s => b_C (D s) q 0%nat 1%nat) (fun s => twist n q (u s))); [apply HC; lia|unfold twist; apply der_dx; [exact Hu|lia]|reflexivity].
Qed.
End Der.

Lemma const_der (D : bdat) t0 q : bdat_der (fun _ => D) (mkBd (fun _ _ _ => 0) (match b_heat D with Some _ => Some (mkH (fun _ => 0) (fun _ => 0) (fun _ => 0)) | None => None end) (fun _ => 0) (fun _ => 0) (fun _ => 0) (fun _ => 0)) t0 q.
Proof.
  unfold bdat_der. cbn. split; [intros i l _ _; apply der_const|]. split.
  - destruct (b_heat D) as [h|].
    + right. exists (fun _ => h), (mkH (fun _ => 0) (fun _ => 0) (fun _ => 0)). cbn. split; [reflexivity|]. split; [reflexivity|].
      split; [apply der_const|]. split; apply der_const.
    + left. auto.
  - split; [apply der_const|]. split; [apply der_const|]. split; apply der_const.
Qed.
(** derivative at constant data *)
Lemma der_be (u : R -> dofs) du t0 D q k : (k < 4)%nat -> history6 n t0 u du -> is_derive (fun s => be D q k (u s)) t0 (de D q k (u t0) du).
Proof.
  intros Hk Hu. eapply der_eq; [exact (der_be_D t0 u du Hu (fun _ => D) _ q k Hk (const_der D t0 q))|].
  cbn. unfold corner_y, corner_z. cbn. destruct (b_heat D) as [h|]; cbn; unfold dexpansion; cbn; destruct (Nat.even k), (Nat.leb k 1); cbn; try lra.
Qed.
Lemma der_bs (u : R -> dofs) du t0 D q k : (k < 4)%nat -> history6 n t0 u du ->
  is_derive (fun s => bs D q k (u s)) t0 (b_C D q 0%nat 0%nat * de D q k (u t0) du + b_C D q 0%nat 1%nat * twist n q du).
Proof.
  intros Hk Hu. eapply der_eq; [exact (der_bs_D t0 u du Hu (fun _ => D) _ q k _ Hk (proj1 (const_der D t0 q)) (der_be u du t0 D q k Hk Hu))|].
  cbn. lra.
Qed.
Lemma dp_eq D D' q k u us : (k < 4)%nat ->
  let e' := de D q k u us + corner_y D' q k * curv_y b n q u + corner_z D' q k * curv_z b n q u
     - match b_heat D, b_heat D' with Some h, Some h' => dexpansion h h' q | _, _ => 0 end in
  snd (beam_dp n vk b D D' q k u us) 0%nat = e' /\
  fst (beam_dp n vk b D D' q k u us) 0%nat =
    b_C D' q 0%nat 0%nat * be D q k u + b_C D q 0%nat 0%nat * e' + b_C D' q 0%nat 1%nat * twist n q u + b_C D q 0%nat 1%nat * twist n q us.
Proof.
  intros Hk. cbv zeta. unfold beam_dp. cbn [fst snd].
  assert (E0 : (if bends b then bend_strain n b D' q k u (match b_heat D, b_heat D' with Some h, Some h' => minus0 (fun _ => 0) (dexpansion h h' q) | _, _ => fun _ => 0 end)
     else match b_heat D, b_heat D' with Some h, Some h' => minus0 (fun _ => 0) (dexpansion h h' q) | _, _ => fun _ => 0 end) 0%nat =
     corner_y D' q k * curv_y b n q u + corner_z D' q k * curv_z b n q u
     - match b_heat D, b_heat D' with Some h, Some h' => dexpansion h h' q | _, _ => 0 end /\
     (if bends b then bend_strain n b D' q k u (match b_heat D, b_heat D' with Some h, Some h' => minus0 (fun _ => 0) (dexpansion h h' q) | _, _ => fun _ => 0 end)
     else match b_heat D, b_heat D' with Some h, Some h' => minus0 (fun _ => 0) (dexpansion h h' q) | _, _ => fun _ => 0 end) 1%nat = 0).
  { destruct (bends b) eqn:Eb.
    - unfold bend_strain, vplus. rewrite !(vm_yz_y n b Hfit), !(vm_yz_z n b Hfit), at_y_eq, at_z_eq by exact Hk.
      destruct (b_heat D), (b_heat D'); cbn [minus0]; split; lra.
    - destruct (nob q u Eb) as [-> ->]. destruct (b_heat D), (b_heat D'); cbn [minus0]; split; lra. }
  destruct E0 as [E0 E1]. destruct (strain_eq D q k u Hk) as [S0 S1]. destruct (dstrain_eq D q k u us Hk) as [M0 M1].
  unfold vplus at 1 2 3. split.
  - rewrite E0, M0. lra.
  - rewrite Plate_Proofs.vm_mm. unfold mv. cbn [sum]. rewrite E0, E1, S0, S1, M0, M1. lra.
Qed.
End BeamP.
