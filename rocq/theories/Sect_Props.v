(** Theorems about the section cards (C99-C106). *)
From Coquelicot Require Import Coquelicot.
From Coq Require Import List Arith Bool Reals Lra Lia.
From Verif Require Import Base BaseLemmas RBool Mat_Model Mat_Spec Mat_Proofs Coor_Model Coor_Proofs Sect_Model Sect_Spec Sect_Proofs.
Import ListNotations.
Open Scope R_scope.

(** ** C99: the constants of a rectangular bar are the integrals over its section *)
Theorem C99_section_constants : forall s,
  area s = over s (fun _ _ => 1) /\ ymom s = over s (fun _ z => z) /\ zmom s = over s (fun y _ => y) /\
  polar_in s = over s (fun y z => y ^ 2 + z ^ 2) /\
  exists I, inert s = Ok I /\ square I 2 /\
    ent I 0%nat 0%nat = over s (fun y _ => y ^ 2) /\ ent I 0%nat 1%nat = over s (fun y z => y * z) /\
    ent I 1%nat 0%nat = over s (fun y z => y * z) /\ ent I 1%nat 1%nat = over s (fun _ z => z ^ 2).
Proof.
  intros s. split; [apply area_over|]. split; [apply ymom_over|]. split; [apply zmom_over|]. split; [apply polar_over|]. apply inert_over.
Qed.
Print Assumptions C99_section_constants.
(** The torsional constant does not depend on which side is called y, is positive and at most the polar moment about the centre. *)
Theorem C99_torsional_constant : forall s, positive_bar s ->
  exists J, tors s = Ok J /\ J = roark (Rmax (s hy_) (s hz_)) (Rmin (s hy_) (s hz_)) /\
    0 < J <= over (fun x => match x with oy_ | oz_ => 0 | _ => s x end) (fun y z => y ^ 2 + z ^ 2) /\
    tors (fun x => match x with hy_ => s hz_ | hz_ => s hy_ | _ => s x end) = Ok J.
Proof.
  intros s P. eexists. split; [apply (tors_eq s P)|]. split; [reflexivity|]. destruct P as (Py & Pz).
  assert (O : 0 < Rmin (s hy_) (s hz_) <= Rmax (s hy_) (s hz_)).
  { split; [apply Rmin_glb_lt; auto|]. apply Rle_trans with (s hy_); [apply Rmin_l|apply Rmax_l]. }
  split; [split; [apply roark_pos; auto|]|].
  - apply Rle_trans with (1 := roark_le _ _ O). rewrite <- polar_over. unfold polar_in.
    destruct (Rle_dec (s hy_) (s hz_)) as [L|L].
    + rewrite Rmax_right, Rmin_left by lra. apply Req_le. field.
    + rewrite Rmax_left, Rmin_right by lra. apply Req_le. field.
  - rewrite tors_eq by (split; assumption). rewrite Rmax_comm, Rmin_comm. reflexivity.
Qed.
Print Assumptions C99_torsional_constant.
Definition sample_bar : sec := fun x => match x with hy_ => 1 | hz_ => 2 | oy_ => 3 | oz_ => 4 | _ => 1 end.
Example C99_example : positive_bar sample_bar /\ area sample_bar = 2 /\ zmom sample_bar = 6.
Proof. unfold positive_bar, area, zmom, sample_bar. lra. Qed.

(** ** C100: the matrices of a bar give the resultants of its stresses *)
Theorem C100_bar_resultants : forall C s, square C 2 -> ent C 0%nat 1%nat = 0 -> ent C 1%nat 0%nat = 0 -> positive_bar s ->
  exists A B D J, ext1 C s = Ok A /\ extbend1 C s = Ok B /\ bend1 C s = Ok D /\ tors s = Ok J /\ square A 2 /\ square B 2 /\ square D 2 /\
    (forall e ky kz, let sig y z := ent C 0%nat 0%nat * axial e ky kz y z in
      over s sig = ent A 0%nat 0%nat * e + (ent B 0%nat 0%nat * ky + ent B 0%nat 1%nat * kz) /\
      over s (fun y z => y * sig y z) = ent B 0%nat 0%nat * e + (ent D 0%nat 0%nat * ky + ent D 0%nat 1%nat * kz) /\
      over s (fun y z => z * sig y z) = ent B 0%nat 1%nat * e + (ent D 1%nat 0%nat * ky + ent D 1%nat 1%nat * kz)) /\
    ent A 1%nat 1%nat = ent C 1%nat 1%nat * J /\ ent A 0%nat 1%nat = 0 /\ ent A 1%nat 0%nat = 0 /\
    ent B 1%nat 0%nat = 0 /\ ent B 1%nat 1%nat = 0.
Proof.
  intros C s Sq C01 C10 P. destruct (bar_stiff C s Sq P) as (A & B & D & EA & EB & ED & SA & SB & SD & A0 & A1 & B00 & B01 & B1 & DI).
  exists A, B, D, (roark (Rmax (s hy_) (s hz_)) (Rmin (s hy_) (s hz_))).
  split; [exact EA|]. split; [exact EB|]. split; [exact ED|]. split; [apply tors_eq; exact P|]. do 3 (split; [assumption|]).
  destruct (inert_over s) as (I & EI & _ & i00 & i01 & i10 & i11). specialize (DI I EI).
  rewrite (over_poly s (fun y _ => y ^ 2) 0 0 0 1 0 0) in i00 by (intros; ring). rewrite (over_poly s (fun y z => y * z) 0 0 0 0 1 0) in i01, i10 by (intros; ring).
  rewrite (over_poly s (fun _ z => z ^ 2) 0 0 0 0 0 1) in i11 by (intros; ring).
  set (E := ent C 0%nat 0%nat) in *. split; [|rewrite !A0, !A1, C01, C10, !B1 by lia; repeat split; ring].
  intros e ky kz. cbv zeta. rewrite !DI, i00, i01, i10, i11, A0, B00, B01. fold E. unfold area, ymom, zmom, axial.
  rewrite (over_poly s (fun y z => E * (e + y * ky + z * kz)) (E * e) (E * ky) (E * kz) 0 0 0) by (intros; ring).
  split; [ring|].
  assert (Q1 : over s (fun y z => y * (E * (e + y * ky + z * kz))) = s hy_ * s hz_ * (E * e * s oy_ + E * ky * (s oy_ ^ 2 + s hy_ ^ 2 / 12) + E * kz * (s oy_ * s oz_))).
  { rewrite (over_poly s _ 0 (E * e) 0 (E * ky) (E * kz) 0) by (intros; ring). ring. }
  assert (Q2 : over s (fun y z => z * (E * (e + y * ky + z * kz))) = s hy_ * s hz_ * (E * e * s oz_ + E * ky * (s oy_ * s oz_) + E * kz * (s oz_ ^ 2 + s hz_ ^ 2 / 12))).
  { rewrite (over_poly s _ 0 0 (E * e) 0 (E * ky) (E * kz)) by (intros; ring). ring. }
  rewrite Q1, Q2. split; ring.
Qed.
Print Assumptions C100_bar_resultants.
(** Stretching or bending a bar takes work. *)
Theorem C100_bar_work : forall C s e ky kz, square C 2 -> ent C 0%nat 1%nat = 0 -> ent C 1%nat 0%nat = 0 -> 0 < ent C 0%nat 0%nat -> positive_bar s ->
  e <> 0 \/ ky <> 0 \/ kz <> 0 ->
  exists A B D, ext1 C s = Ok A /\ extbend1 C s = Ok B /\ bend1 C s = Ok D /\
    0 < e * (ent A 0%nat 0%nat * e) + 2 * e * (ent B 0%nat 0%nat * ky + ent B 0%nat 1%nat * kz)
        + ky * (ent D 0%nat 0%nat * ky + ent D 0%nat 1%nat * kz) + kz * (ent D 1%nat 0%nat * ky + ent D 1%nat 1%nat * kz).
Proof.
  intros C s e ky kz Sq C01 C10 E0 P N. destruct (bar_stiff C s Sq P) as (A & B & D & EA & EB & ED & SA & SB & SD & A0 & A1 & B00 & B01 & B1 & DI).
  exists A, B, D. do 3 (split; [assumption|]). destruct (inert_over s) as (I & EI & _ & i00 & i01 & i10 & i11). specialize (DI I EI).
  rewrite (over_poly s (fun y _ => y ^ 2) 0 0 0 1 0 0) in i00 by (intros; ring). rewrite (over_poly s (fun y z => y * z) 0 0 0 0 1 0) in i01, i10 by (intros; ring).
  rewrite (over_poly s (fun _ z => z ^ 2) 0 0 0 0 0 1) in i11 by (intros; ring).
  rewrite !DI, i00, i01, i10, i11, A0, B00, B01. unfold area, ymom, zmom. destruct P as (Py & Pz).
  replace (_ + _) with (ent C 0%nat 0%nat * (s hy_ * s hz_) * ((e + s oy_ * ky + s oz_ * kz) ^ 2 + s hy_ ^ 2 / 12 * ky ^ 2 + s hz_ ^ 2 / 12 * kz ^ 2)) by field.
  apply Rmult_lt_0_compat; [apply Rmult_lt_0_compat; [lra|apply Rmult_lt_0_compat; lra]|].
  assert (Hy : 0 < s hy_ ^ 2) by (apply pow_lt; lra). assert (Hz : 0 < s hz_ ^ 2) by (apply pow_lt; lra).
  pose proof (pow2_ge_0 (e + s oy_ * ky + s oz_ * kz)). pose proof (pow2_ge_0 ky). pose proof (pow2_ge_0 kz).
  destruct (Req_dec ky 0) as [->|Ky]; [destruct (Req_dec kz 0) as [->|Kz]|].
  - destruct N as [N|[N|N]]; [|lra|lra]. assert (0 < (e + s oy_ * 0 + s oz_ * 0) ^ 2) by (replace (e + s oy_ * 0 + s oz_ * 0) with e by ring; rewrite <- Rsqr_pow2; apply Rsqr_pos_lt; auto). nra.
  - assert (0 < kz ^ 2) by (rewrite <- Rsqr_pow2; apply Rsqr_pos_lt; auto). nra.
  - assert (0 < ky ^ 2) by (rewrite <- Rsqr_pow2; apply Rsqr_pos_lt; auto). nra.
Qed.
Print Assumptions C100_bar_work.
(** Shear: the shear stiffness of the material times the area times the coefficients. *)
Theorem C100_bar_shear : forall G s, square G 2 -> exists T, trans1 G s = Ok T /\ square T 2 /\
  ent T 0%nat 0%nat = over s (fun _ _ => s kz_ * ent G 0%nat 0%nat) /\ ent T 1%nat 1%nat = over s (fun _ _ => s ky_ * ent G 1%nat 1%nat) /\
  ent T 0%nat 1%nat = 0 /\ ent T 1%nat 0%nat = 0.
Proof.
  intros G s (Gr & Gc). rewrite (eta G 2 2 Gr Gc). unfold trans1, shear_co, scl_at. mred. eexists. split; [reflexivity|]. split; [split; reflexivity|].
  rewrite (over_poly s (fun _ _ => s kz_ * ent G 0%nat 0%nat) (s kz_ * ent G 0%nat 0%nat) 0 0 0 0 0) by (intros; ring).
  rewrite (over_poly s (fun _ _ => s ky_ * ent G 1%nat 1%nat) (s ky_ * ent G 1%nat 1%nat) 0 0 0 0 0) by (intros; ring).
  unfold area. cbn [ent]. ents. repeat split; ring.
Qed.
Print Assumptions C100_bar_shear.
(** Heating: the resultants of the stress that suppresses the free expansion. *)
Theorem C100_bar_heated : forall C a s, square C 2 -> rows a = 2%nat -> cols a = 1%nat -> ent C 0%nat 1%nat = 0 ->
  exists tA tB, thermA1 C a s = Ok tA /\ thermB1 C a s = Ok tB /\ rows tA = 2%nat /\ cols tA = 1%nat /\ rows tB = 2%nat /\ cols tB = 1%nat /\
    ent tA 0%nat 0%nat = over s (fun _ _ => ent C 0%nat 0%nat * ent a 0%nat 0%nat) /\
    ent tB 0%nat 0%nat = over s (fun y _ => y * (ent C 0%nat 0%nat * ent a 0%nat 0%nat)) /\
    ent tB 1%nat 0%nat = over s (fun _ z => z * (ent C 0%nat 0%nat * ent a 0%nat 0%nat)).
Proof.
  intros C a s (Cr & Cc) ar ac C01. rewrite (eta C 2 2 Cr Cc), (eta a 2 1 ar ac). unfold thermA1, thermB1, moments. mred.
  do 2 eexists. do 2 (split; [reflexivity|]). do 4 (split; [reflexivity|]).
  set (k := ent C 0%nat 0%nat * ent a 0%nat 0%nat).
  assert (o1 : over s (fun _ _ => k) = s hy_ * s hz_ * k) by (rewrite (over_poly s _ k 0 0 0 0 0) by (intros; ring); ring).
  assert (o2 : over s (fun y _ => y * k) = s hy_ * s hz_ * k * s oy_) by (rewrite (over_poly s _ 0 k 0 0 0 0) by (intros; ring); ring).
  assert (o3 : over s (fun _ z => z * k) = s hy_ * s hz_ * k * s oz_) by (rewrite (over_poly s _ 0 0 k 0 0 0) by (intros; ring); ring).
  cbn [ent]. fold k. rewrite o1, o2, o3. unfold area, ymom, zmom. ents. rewrite C01. unfold k. repeat split; ring.
Qed.
Print Assumptions C100_bar_heated.
Definition sample_bar_mat : mat R := mkMat 2 2 (fun i j => match i, j with 0%nat, 0%nat => 10 | 1%nat, 1%nat => 4 | _, _ => 0 end).
Example C100_example : square sample_bar_mat 2 /\ exists A B D, ext1 sample_bar_mat sample_bar = Ok A /\ extbend1 sample_bar_mat sample_bar = Ok B /\ bend1 sample_bar_mat sample_bar = Ok D /\
  ent A 0%nat 0%nat = 20 /\ ent B 0%nat 0%nat = 60 /\ ent B 0%nat 1%nat = 80.
Proof.
  assert (Sq : square sample_bar_mat 2) by (split; reflexivity). split; [exact Sq|].
  destruct (bar_stiff sample_bar_mat sample_bar Sq (proj1 C99_example)) as (A & B & D & EA & EB & ED & _ & _ & _ & A0 & _ & B00 & B01 & _).
  exists A, B, D. do 3 (split; [assumption|]). rewrite A0, B00, B01. cbn. unfold area, ymom, zmom, sample_bar. lra.
Qed.

(** ** C101: the kinetic energy of a bar *)
Lemma inertia1_quad s q : exists M, inertia1 s = Ok M /\ square M 6 /\
  quad M 6 q = s den_ * (s hy_ * s hz_) * (q 0%nat ^ 2 + q 1%nat ^ 2 + q 2%nat ^ 2
    + ((s hy_ ^ 2 + s hz_ ^ 2) / 12 + s oy_ ^ 2 + s oz_ ^ 2) * q 3%nat ^ 2 + 2 * s oz_ * q 0%nat * q 4%nat + 2 * s oy_ * q 0%nat * q 5%nat
    + (s hz_ ^ 2 / 12 + s oz_ ^ 2) * q 4%nat ^ 2 + (s hy_ ^ 2 / 12 + s oy_ ^ 2) * q 5%nat ^ 2 + 2 * s oy_ * s oz_ * q 4%nat * q 5%nat).
Proof.
  unfold inertia1, inert. mred. unfold inertia1_geo. mred. eexists. split; [reflexivity|]. split; [split; reflexivity|].
  unfold quad, area, ymom, zmom, polar_in. cbn [ent]. ents. field.
Qed.
Lemma speed_over s q : over s (speed2 q) = s hy_ * s hz_ * (q 0%nat ^ 2 + q 1%nat ^ 2 + q 2%nat ^ 2
    + ((s hy_ ^ 2 + s hz_ ^ 2) / 12 + s oy_ ^ 2 + s oz_ ^ 2) * q 3%nat ^ 2 + 2 * s oz_ * q 0%nat * q 4%nat - 2 * s oy_ * q 0%nat * q 5%nat
    + (s hz_ ^ 2 / 12 + s oz_ ^ 2) * q 4%nat ^ 2 + (s hy_ ^ 2 / 12 + s oy_ ^ 2) * q 5%nat ^ 2 - 2 * s oy_ * s oz_ * q 4%nat * q 5%nat
    - 2 * s oz_ * q 1%nat * q 3%nat + 2 * s oy_ * q 2%nat * q 3%nat).
Proof.
  rewrite (over_poly s (speed2 q) (q 0%nat ^ 2 + q 1%nat ^ 2 + q 2%nat ^ 2) (2 * q 2%nat * q 3%nat - 2 * q 0%nat * q 5%nat) (2 * q 0%nat * q 4%nat - 2 * q 1%nat * q 3%nat)
    (q 5%nat ^ 2 + q 3%nat ^ 2) (- (2 * q 4%nat * q 5%nat)) (q 4%nat ^ 2 + q 3%nat ^ 2)) by (intros; unfold speed2; ring).
  field.
Qed.
(** The energy the matrix gives exceeds the kinetic energy of the section by the terms below: with an offset, the
    coupling of twist with the deflections is missing and the coupling of the turn about z has the wrong sign. *)
Theorem C101_bar_kinetic_defect : forall s q, exists M, inertia1 s = Ok M /\ square M 6 /\
  quad M 6 q = s den_ * over s (speed2 q)
    + 2 * s den_ * area s * (2 * s oy_ * q 0%nat * q 5%nat + 2 * s oy_ * s oz_ * q 4%nat * q 5%nat + s oz_ * q 1%nat * q 3%nat - s oy_ * q 2%nat * q 3%nat).
Proof.
  intros s q. destruct (inertia1_quad s q) as (M & E & Sq & Q). exists M. split; [exact E|]. split; [exact Sq|].
  rewrite Q, speed_over. unfold area. ring.
Qed.
Print Assumptions C101_bar_kinetic_defect.
(** Without offsets, or when the section does not twist and is offset along z only, it is the kinetic energy. *)
Theorem C101_bar_kinetic_partial : forall s q, s oy_ = 0 -> s oz_ = 0 \/ q 3%nat = 0 ->
  exists M, inertia1 s = Ok M /\ square M 6 /\ quad M 6 q = s den_ * over s (speed2 q).
Proof.
  intros s q Oy H. destruct (C101_bar_kinetic_defect s q) as (M & E & Sq & Q). exists M. split; [exact E|]. split; [exact Sq|].
  rewrite Q, Oy. destruct H as [->| ->]; ring.
Qed.
Print Assumptions C101_bar_kinetic_partial.
(** The matrix is symmetric and moving the section takes energy, whatever the offsets. *)
Theorem C101_bar_inertia_positive : forall s, positive_bar s -> 0 < s den_ -> exists M, inertia1 s = Ok M /\ elastic M 6.
Proof.
  intros s (Py & Pz) D. destruct (inertia1_quad s (fun _ => 0)) as (M & E & Sq & _). exists M. split; [exact E|].
  destruct Sq as (Mr & Mc). split; [exact Mr|]. split; [exact Mc|]. split.
  - revert E. unfold inertia1, inert. mred. unfold inertia1_geo. mred. intros E. injection E as <-. intros i j Hi Hj.
    ix6 i; ix6 j; cbn [ent]; ents; ring.
  - intros q (i & Hi & N). destruct (inertia1_quad s q) as (M' & E' & _ & Q). rewrite E in E'. injection E' as <-. unfold quad in Q. rewrite Q.
    apply Rmult_lt_0_compat; [apply Rmult_lt_0_compat; [lra|apply Rmult_lt_0_compat; lra]|].
    assert (Hy : 0 < s hy_ ^ 2) by (apply pow_lt; lra). assert (Hz : 0 < s hz_ ^ 2) by (apply pow_lt; lra).
    replace (_ + _) with ((q 0%nat + s oz_ * q 4%nat + s oy_ * q 5%nat) ^ 2 + q 1%nat ^ 2 + q 2%nat ^ 2 + ((s hy_ ^ 2 + s hz_ ^ 2) / 12 + s oy_ ^ 2 + s oz_ ^ 2) * q 3%nat ^ 2
      + s hz_ ^ 2 / 12 * q 4%nat ^ 2 + s hy_ ^ 2 / 12 * q 5%nat ^ 2) by field.
    assert (S : forall x : R, x <> 0 -> 0 < x ^ 2) by (intros x Hx; rewrite <- Rsqr_pow2; apply Rsqr_pos_lt; auto).
    pose proof (pow2_ge_0 (q 0%nat + s oz_ * q 4%nat + s oy_ * q 5%nat)). pose proof (pow2_ge_0 (q 1%nat)). pose proof (pow2_ge_0 (q 2%nat)).
    assert (0 <= ((s hy_ ^ 2 + s hz_ ^ 2) / 12 + s oy_ ^ 2 + s oz_ ^ 2) * q 3%nat ^ 2).
    { apply Rmult_le_pos; [|apply pow2_ge_0]. pose proof (pow2_ge_0 (s oy_)). pose proof (pow2_ge_0 (s oz_)). lra. }
    assert (0 <= s hz_ ^ 2 / 12 * q 4%nat ^ 2) by (apply Rmult_le_pos; [lra|apply pow2_ge_0]).
    assert (0 <= s hy_ ^ 2 / 12 * q 5%nat ^ 2) by (apply Rmult_le_pos; [lra|apply pow2_ge_0]).
    destruct (Req_dec (q 4%nat) 0) as [Z4|Z4].
    2:{ assert (0 < s hz_ ^ 2 / 12 * q 4%nat ^ 2) by (apply Rmult_lt_0_compat; [lra|auto]). lra. }
    destruct (Req_dec (q 5%nat) 0) as [Z5|Z5].
    2:{ assert (0 < s hy_ ^ 2 / 12 * q 5%nat ^ 2) by (apply Rmult_lt_0_compat; [lra|auto]). lra. }
    ix6 i; try contradiction.
    + assert (0 < (q 0%nat + s oz_ * q 4%nat + s oy_ * q 5%nat) ^ 2) by (apply S; rewrite Z4, Z5; intros X; apply N; lra). lra.
    + specialize (S _ N). lra.
    + specialize (S _ N). lra.
    + assert (0 < ((s hy_ ^ 2 + s hz_ ^ 2) / 12 + s oy_ ^ 2 + s oz_ ^ 2) * q 3%nat ^ 2).
      { apply Rmult_lt_0_compat; [|auto]. pose proof (pow2_ge_0 (s oy_)). pose proof (pow2_ge_0 (s oz_)). lra. }
      lra.
Qed.
Print Assumptions C101_bar_inertia_positive.
Theorem C101_bar_kinetic_refuted : exists s q M, positive_bar s /\ 0 < s den_ /\ s oz_ = 0 /\ q 3%nat = 0 /\ inertia1 s = Ok M /\ quad M 6 q <> s den_ * over s (speed2 q).
Proof.
  exists (fun x => match x with oz_ => 0 | _ => 1 end), (fun i => match i with 0%nat | 5%nat => 1 | _ => 0 end).
  destruct (C101_bar_kinetic_defect (fun x => match x with oz_ => 0 | _ => 1 end) (fun i => match i with 0%nat | 5%nat => 1 | _ => 0 end)) as (M & E & _ & Q).
  exists M. split; [split; lra|]. split; [lra|]. split; [reflexivity|]. split; [reflexivity|]. split; [exact E|]. rewrite Q. unfold area. lra.
Qed.
Print Assumptions C101_bar_kinetic_refuted.
Example C101_example : exists M, inertia1 (fun x => match x with oy_ => 0 | _ => 1 end) = Ok M /\ elastic M 6.
Proof. apply C101_bar_inertia_positive; unfold positive_bar; lra. Qed.
