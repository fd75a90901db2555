From Coq Require Import Reals Lra.
From Coquelicot Require Import Coquelicot.
From Coq Require Import List Arith Bool Lia.
From Verif Require Import Base BaseLemmas Sens_Spec Sens_Proofs Sens_Proofs2 Heat_Proofs Solid_Model Solid_Spec Solid_Proofs2 Dof6_Model Dof6_Proofs Beam_Spec Beam_Proofs Beam_Proofs2 Plate_Model Plate_Spec Plate_Proofs.
Import ListNotations.
Open Scope R_scope.

Ltac vmo := rewrite ?vm_oset by (try lia; intros; reflexivity); rewrite ?vm_zop; cbn [Nat.eqb].
Section B.
Variable n : nat.
Variable nl : bool.
Variable b : plate.
Hypothesis FIT : pfits b n.
Notation g := (grad n).
Notation kap := (curvature b n).

Lemma vm_lin q u r : vm n (b_lin q) u r = match r with 0%nat => g q u 0 0 | 1%nat => g q u 1 1 | 2%nat => g q u 0 1 + g q u 1 0 | _ => 0 end.
Proof. unfold b_lin, grad, dX, dY. vmo. destruct r as [|[|[|r]]]; cbn [Nat.eqb]; ring. Qed.
Lemma vm_x q u r : vm n (b_x nl q) u r = match r with 0%nat => flag nl (g q u 0 0) | 1%nat => flag nl (g q u 1 0) | _ => 0 end.
Proof. unfold b_x, grad, dX, dY, flag. destruct nl; vmo; destruct r as [|[|[|r]]]; cbn [Nat.eqb]; ring. Qed.
Lemma vm_y q u r : vm n (b_y nl q) u r = match r with 0%nat => flag nl (g q u 0 1) | 1%nat => flag nl (g q u 1 1) | _ => 0 end.
Proof. unfold b_y, grad, dX, dY, flag. destruct nl; vmo; destruct r as [|[|[|r]]]; cbn [Nat.eqb]; ring. Qed.
Lemma vm_u q u r : vm n (b_u nl q) u r = match r with 0%nat => flag nl (g q u 0 0) | 1%nat => flag nl (g q u 0 1) | _ => 0 end.
Proof. unfold b_u, grad, dX, dY, flag. destruct nl; vmo; destruct r as [|[|[|r]]]; cbn [Nat.eqb]; ring. Qed.
Lemma vm_v q u r : vm n (b_v nl q) u r = match r with 0%nat => flag nl (g q u 1 0) | 1%nat => flag nl (g q u 1 1) | _ => 0 end.
Proof. unfold b_v, grad, dX, dY, flag. destruct nl; vmo; destruct r as [|[|[|r]]]; cbn [Nat.eqb]; ring. Qed.
Lemma vm_vk q u r : vm n (b_vk q) u r = match r with 0%nat => g q u 2 0 | 1%nat => g q u 2 1 | _ => 0 end.
Proof. unfold b_vk, grad, dX, dY. vmo; destruct r as [|[|[|r]]]; cbn [Nat.eqb]; ring. Qed.
Lemma node0 m (s : nat -> R) u : sum m (fun a => s a * node_beta u a 0) = sum m (fun a => s a * u 4%nat a).
Proof. reflexivity. Qed.
Lemma node1 m (s : nat -> R) u : sum m (fun a => s a * node_beta u a 1) = - sum m (fun a => s a * u 3%nat a).
Proof. transitivity (sum m (fun a => (-1) * (s a * u 3%nat a))); [apply sum_ext; intros; cbn [node_beta]; ring|rewrite sum_scal_l; ring]. Qed.
Lemma vm_shear q u r : vm n (b_shear q) u r = match r with 0%nat => pgamma n q u 0 | 1%nat => pgamma n q u 1 | _ => 0 end.
Proof. unfold b_shear, pgamma, grad, dX, dY. vmo. rewrite pscal_sum, node0, node1. destruct r as [|[|[|r]]]; cbn [Nat.eqb]; ring. Qed.
Lemma part_sum v k (u : dofs) z c : sum 3 (fun a => pscal z (part v k) a * u c a) = z * sum 3 (fun a => v (k + a)%nat * u c a).
Proof. rewrite pscal_sum. reflexivity. Qed.
Lemma vm_bend_z q u z r : vm n (pbend_z b q z) u r = if Nat.ltb r 3 then z * kap q u r else 0.
Proof.
  unfold curvature. destruct b as [| |P d6] eqn:Eb; cbn [pbend_z beta_grad].
  - rewrite vm_zop. destruct (Nat.ltb_spec r 3); [|reflexivity]. destruct r as [|[|r]]; ring.
  - vmo. rewrite !pscal_sum, !node0, !node1. unfold grad. destruct r as [|[|[|r]]]; cbn [Nat.eqb Nat.ltb Nat.leb]; ring.
  - destruct FIT as [En HC]. clear Eb FIT. subst n.
    destruct (dkt_eq P HC (fun i => d6 q i 0%nat) u) as [X1 X2]. destruct (dkt_eq P HC (fun i => d6 q i 1%nat) u) as [Y1 Y2].
    destruct (dkt_shape P (fun i => d6 q i 0%nat)) as [x1 x2]. destruct (dkt_shape P (fun i => d6 q i 1%nat)) as [y1 y2].
    cbn [fst snd] in *. rewrite <- X1, <- X2, <- Y1, <- Y2. vmo. rewrite !part_sum. unfold dkt_dot.
    destruct r as [|[|[|r]]]; cbn [Nat.eqb Nat.ltb Nat.leb sum Nat.add]; ring.
Qed.
Lemma vm_bend q u r : vm n (pbend b q) u r = if Nat.ltb r 3 then kap q u r else 0.
Proof. unfold pbend. rewrite vm_bend_z. destruct (Nat.ltb r 3); ring. Qed.

(** *** weak forms at a quadrature point *)
Definition eps (q : qpt) (u : dofs) : nat -> R := membrane nl (nl && pbends b) n q u.
(** derivative of the in-plane part of the strain in the direction d, and of the part of the deflection *)
Definition dlin (q : qpt) (d : dofs) (r : nat) : R := match r with 0%nat => g q d 0 0 | 1%nat => g q d 1 1 | _ => g q d 0 1 + g q d 1 0 end.
Definition sym2 (q : qpt) (u d : dofs) (c r : nat) : R := match r with
  | 0%nat => g q u c 0 * g q d c 0 | 1%nat => g q u c 1 * g q d c 1 | _ => g q u c 0 * g q d c 1 + g q u c 1 * g q d c 0 end.
Definition dgl (q : qpt) (u d : dofs) (r : nat) : R := flag nl (sym2 q u d 0 r + sym2 q u d 1 r).
Definition dvk (q : qpt) (u d : dofs) (r : nat) : R := flag (nl && pbends b) (sym2 q u d 2 r).
Definition deps (q : qpt) (u d : dofs) (r : nat) : R := dlin q d r + dgl q u d r + dvk q u d r.
Definition Nf (S : psect) (q : qpt) (u : dofs) (r : nat) : R := sum 3 (fun l => pA S r l * eps q u l) + sum 3 (fun l => pB S r l * kap q u l).
Definition wf (S : psect) (q : qpt) (u d : dofs) : R :=
  sum 3 (fun r => Nf S q u r * deps q u d r)
  + sum 3 (fun r => kap q d r * (sum 3 (fun l => pB S l r * eps q u l) + sum 3 (fun l => pD S r l * kap q u l))).
Lemma no_k : pbends b = false -> forall q u r, kap q u r = 0.
Proof. unfold curvature. destruct b; try discriminate. intros _ q u r. cbn [beta_grad]. destruct r as [|[|r]]; ring. Qed.
Lemma gl_eq q u r : (r < 3)%nat -> gl_strain n nl q u r = membrane nl false n q u r.
Proof.
  intros Hr. unfold gl_strain, membrane, flag. destruct nl eqn:E; cbv zeta.
  - pose proof (vm_x) as HX. pose proof vm_y as HY. rewrite E in HX, HY. unfold flag in *. cbn [sum]. rewrite !HX, !HY.
    destruct r as [|[|[|r]]]; [| | |lia]; field.
  - rewrite vm_lin. destruct r as [|[|[|r]]]; [| | |lia]; field.
Qed.
Lemma vk_eq q u r : membrane nl true n q u r = membrane nl false n q u r + vk_eps n q u r.
Proof.
  unfold membrane, vk_eps, flag. change (dwdx n q u) with (g q u 2 0). change (dwdy n q u) with (g q u 2 1).
  destruct r as [|[|r]]; field.
Qed.
Lemma mat_x_eq q u r k : (k < 2)%nat -> mat_x n nl q u r k = flag nl (match r with 0%nat => g q u k 0 | 2%nat => g q u k 1 | _ => 0 end).
Proof. intros Hk. unfold mat_x. rewrite vm_x, vm_y. unfold flag. destruct nl; [|reflexivity]. destruct k as [|[|k]]; [| |lia]; destruct r as [|[|[|r]]]; reflexivity. Qed.
Lemma mat_y_eq q u r k : (k < 2)%nat -> mat_y n nl q u r k = flag nl (match r with 1%nat => g q u k 1 | 2%nat => g q u k 0 | _ => 0 end).
Proof. intros Hk. unfold mat_y. rewrite vm_x, vm_y. unfold flag. destruct nl; [|reflexivity]. destruct k as [|[|k]]; [| |lia]; destruct r as [|[|[|r]]]; reflexivity. Qed.
Lemma vk_mat_eq q u r k : vk_mat n q u r k = match r, k with
  | 0%nat, 0%nat => g q u 2 0 | 2%nat, 1%nat => g q u 2 0 | 1%nat, 1%nat => g q u 2 1 | 2%nat, 0%nat => g q u 2 1 | _, _ => 0 end.
Proof. reflexivity. Qed.
End B.
