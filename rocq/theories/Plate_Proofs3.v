From Coq Require Import Reals Lra.
From Coquelicot Require Import Coquelicot.
From Coq Require Import List Arith Bool Lia.
From Verif Require Import Base BaseLemmas Sens_Spec Sens_Proofs Sens_Proofs2 Heat_Proofs Solid_Model Solid_Spec Solid_Proofs2 Dof6_Model Dof6_Proofs Beam_Spec Beam_Proofs Beam_Proofs2 Plate_Model Plate_Spec Plate_Proofs Plate_Proofs2.
Import ListNotations.
Open Scope R_scope.

Section B.
Variable n : nat.
Variable nl : bool.
Variable b : plate.
Hypothesis FIT : pfits b n.
Notation g := (grad n).
Notation kap := (curvature b n).
Notation Nf := (Nf n nl b).
Notation wf := (wf n nl b).
Notation dlin := (dlin n).
Notation sym2 := (sym2 n).
Notation dgl := (dgl n nl).
Notation dvk := (dvk n nl b).
Notation deps := (deps n nl b).

(** the stress resultants of the code *)
Definition Nc (S : psect) (q : qpt) (u : dofs) : nat -> R :=
  let A := pA S in let B := pB S in let Bb := pbend b q in let em := gl_strain n nl q u in let N := mv 3 A em in
  if pbends b then
      let N := vplus N (mv 3 B (vm n Bb u)) in
      if nl then vplus N (mv 3 A (vk_eps n q u)) else N
    else N.
Definition ec (q : qpt) (u : dofs) : nat -> R := 
  let em := gl_strain n nl q u in if pbends b && nl then vplus em (vk_eps n q u) else em.
Lemma ec_eq q u r : (r < 3)%nat -> ec q u r = eps n nl b q u r.
Proof.
  intros Hr. unfold ec, eps. rewrite (andb_comm nl). destruct (pbends b && nl)%bool; cbv zeta; unfold vplus.
  - rewrite gl_eq by auto. symmetry. apply vk_eq.
  - now apply gl_eq.
Qed.
Lemma Nc_eq S q u r : (r < 3)%nat -> Nc S q u r = Nf S q u r.
Proof.
  intros Hr. unfold Nc, Plate_Proofs2.Nf.
  rewrite (sum_ext 3 (fun l => pA S r l * eps n nl b q u l) (fun l => pA S r l * ec q u l)) by (intros i Hi; now rewrite ec_eq).
  unfold ec. destruct (pbends b) eqn:Eb; destruct nl; cbv zeta; cbn [andb]; unfold vplus, mv; cbn [sum]; rewrite ?vm_bend by auto; cbn [Nat.ltb Nat.leb]; rewrite ?(no_k n b FIT Eb); ring.
Qed.
Ltac vms := cbn [sum]; rewrite ?vm_mm, ?vm_lm; cbn [sum]; rewrite ?vm_mm, ?vm_lm; cbn [sum]; rewrite ?vm_lm; cbn [sum]; rewrite ?vm_lin, ?vm_x, ?vm_y, ?vm_u, ?vm_v, ?vm_vk, ?(vm_bend n b FIT), ?vm_shear; cbn [Nat.ltb Nat.leb]; unfold mtr; rewrite ?vk_mat_eq; rewrite ?mat_x_eq, ?mat_y_eq by lia; unfold flag.
Lemma internal_qp_f S u req f j q d :
  dot6 n (fst (internal_qp n nl b S u req (f, j) q)) d = dot6 n f d + jxw q * wf (S q) q u d.
Proof.
  transitivity (dot6 n (fst (internal_qp n nl b S u false (f, j) q)) d).
  { f_equal. unfold internal_qp. destruct req; reflexivity. }
  transitivity (dot6 n (let w := jxw q in let N := Nc (S q) q u in let Bb := pbend b q in
    let f := plusf w (vmt 3 (b_lin q) N) f in
    let f := if nl then plusf w (vmt 2 (b_y nl q) (mv 3 (mtr (mat_y n nl q u)) N)) (plusf w (vmt 2 (b_x nl q) (mv 3 (mtr (mat_x n nl q u)) N)) f) else f in
    if pbends b then
      let f := if nl then plusf w (vmt 2 (b_vk q) (mv 3 (mtr (vk_mat n q u)) N)) f else f in
      let f := plusf w (vmt 3 Bb (mv 3 (mtr (pB (S q))) (ec q u))) f in
      plusf w (vmt 3 Bb (mv 3 (pD (S q)) (vm n Bb u))) f
    else f) d).
  { reflexivity. }
  unfold Plate_Proofs2.wf, Plate_Proofs2.deps, Plate_Proofs2.dlin, Plate_Proofs2.dgl, Plate_Proofs2.dvk, Plate_Proofs2.sym2.
  destruct (pbends b) eqn:Eb; destruct nl eqn:En; cbv zeta; cbn [andb flag];
  rewrite ?dot_plusf, ?dot_vmt; unfold mv; cbn [sum]; rewrite ?Nc_eq, ?ec_eq by lia; rewrite <- ?En; rewrite ?Nc_eq, ?ec_eq by lia; vms; rewrite ?En;
  rewrite ?(no_k n b FIT Eb); try ring.
Qed.

(** the derivative of the force, and the blocks that the code does not add *)
Definition wj (S : psect) (q : qpt) (u d v : dofs) : R :=
  sum 3 (fun r => (sum 3 (fun l => pA S r l * deps q u v l) + sum 3 (fun l => pB S r l * kap q v l)) * deps q u d r)
  + sum 3 (fun r => Nf S q u r * (dgl q v d r + dvk q v d r))
  + sum 3 (fun r => kap q d r * (sum 3 (fun l => pB S l r * deps q u v l) + sum 3 (fun l => pD S r l * kap q v l))).
Definition miss (S : psect) (q : qpt) (u d v : dofs) : R :=
  sum 3 (fun r => sum 3 (fun l => pA S r l * (dvk q u v l * dgl q u d r + dgl q u v l * dvk q u d r)
    + pB S r l * (kap q v l * dgl q u d r + kap q d l * dgl q u v r))).
Lemma internal_qp_j S u f j q d v :
  bil n (snd (internal_qp n nl b S u true (f, j) q)) d v = bil n j d v + jxw q * (wj (S q) q u d v - miss (S q) q u d v).
Proof.
  transitivity (bil n (let w := jxw q in let A := pA (S q) in let B := pB (S q) in let D := pD (S q) in let N := Nc (S q) q u in let Bb := pbend b q in 
    let Bl := b_lin q in let Bx := b_x nl q in let By := b_y nl q in let Bu := b_u nl q in let Bv := b_v nl q in let Bk := b_vk q in
    let mx := mat_x n nl q u in let my := mat_y n nl q u in let K := vk_mat n q u in
    let j := plusj w (rmt 3 Bl (lm 3 Bl A)) j in
    let j := if nl then
        let j := plusj w (rmt 3 Bl (mm 3 A (lm 2 Bx mx))) j in
        let j := plusj w (rmt 3 Bl (mm 3 A (lm 2 By my))) j in
        let j := plusj w (rmt 2 Bx (mm 3 (mtr mx) (lm 3 Bl A))) j in
        let j := plusj w (rmt 2 Bx (mm 3 (mtr mx) (mm 3 A (lm 2 Bx mx)))) j in
        let j := plusj w (rmt 2 Bx (mm 3 (mtr mx) (mm 3 A (lm 2 By my)))) j in
        let j := plusj w (rmt 2 By (mm 3 (mtr my) (lm 3 Bl A))) j in
        let j := plusj w (rmt 2 By (mm 3 (mtr my) (mm 3 A (lm 2 Bx mx)))) j in
        let j := plusj w (rmt 2 By (mm 3 (mtr my) (mm 3 A (lm 2 By my)))) j in
        let j := plusj w (rmt 2 Bu (lm 2 Bu (sigma N))) j in
        plusj w (rmt 2 Bv (lm 2 Bv (sigma N))) j
      else j in
    if pbends b then
        let j := if nl then
          let j := plusj w (rmt 3 Bl (mm 3 A (lm 2 Bk K))) j in
          let j := plusj w (rmt 2 Bk (mm 3 (mtr K) (lm 3 Bl A))) j in
          let j := plusj w (rmt 2 Bk (lm 2 Bk (sigma N))) j in
          let j := plusj w (rmt 2 Bk (mm 3 (mtr K) (mm 3 A (lm 2 Bk K)))) j in
          let j := plusj w (rmt 3 Bb (mm 3 (mtr B) (lm 2 Bk K))) j in
          plusj w (rmt 2 Bk (mm 3 (mtr K) (lm 3 Bb B))) j
        else j in
        let j := plusj w (rmt 3 Bb (lm 3 Bl (mtr B))) j in
        let j := plusj w (rmt 3 Bl (lm 3 Bb B)) j in
        plusj w (rmt 3 Bb (lm 3 Bb D)) j
      else j) d v).
  { reflexivity. }
  unfold wj, miss, Plate_Proofs2.deps, Plate_Proofs2.dlin, Plate_Proofs2.dgl, Plate_Proofs2.dvk, Plate_Proofs2.sym2.
  destruct (pbends b) eqn:Eb; destruct nl eqn:En; cbv zeta; cbn [andb flag];
  rewrite ?bil_plusj, ?bil_rmt; vms; unfold sigma; rewrite <- ?En; rewrite ?Nc_eq by lia; rewrite ?En; 
  rewrite ?(no_k n b FIT Eb); ring.
Qed.
Definition sf (G : nat -> nat -> R) (q : qpt) (u d : dofs) : R := sum 2 (fun r => sum 2 (fun l => pgamma n q d r * (G r l * pgamma n q u l))).
Lemma shear_qp_f G u req f j q d : dot6 n (fst (shear_qp n G u req (f, j) q)) d = dot6 n f d + jxw q * sf (G q) q u d.
Proof.
  transitivity (dot6 n (fst (shear_qp n G u false (f, j) q)) d).
  { f_equal. unfold shear_qp. destruct req; reflexivity. }
  unfold shear_qp, sf. cbv zeta. cbn [fst]. rewrite ?dot_plusf, ?dot_vmt; unfold mv; vms. ring.
Qed.
Lemma shear_qp_j G u f j q d v : bil n (snd (shear_qp n G u true (f, j) q)) d v = bil n j d v + jxw q * sf (G q) q v d.
Proof.
  unfold shear_qp, sf. cbv zeta. cbn [snd]. rewrite ?bil_plusj, ?bil_rmt; vms. ring.
Qed.

(** *** folds *)
Lemma fold_f S u req qs fj d : dot6 n (fst (fold_left (internal_qp n nl b S u req) qs fj)) d = dot6 n (fst fj) d + integral qs (fun q => wf (S q) q u d).
Proof.
  revert fj. induction qs as [|q qs IH]; intros [f j]; cbn [fold_left fst].
  - rewrite integral_nil. ring.
  - rewrite IH, internal_qp_f, integral_cons. ring.
Qed.
Lemma fold_j S u qs fj d v :
  bil n (snd (fold_left (internal_qp n nl b S u true) qs fj)) d v = bil n (snd fj) d v + integral qs (fun q => wj (S q) q u d v - miss (S q) q u d v).
Proof.
  revert fj. induction qs as [|q qs IH]; intros [f j]; cbn [fold_left snd].
  - rewrite integral_nil. ring.
  - rewrite IH, internal_qp_j, integral_cons. ring.
Qed.
Lemma folds_f G u req qs fj d : dot6 n (fst (fold_left (shear_qp n G u req) qs fj)) d = dot6 n (fst fj) d + integral qs (fun q => sf (G q) q u d).
Proof.
  revert fj. induction qs as [|q qs IH]; intros [f j]; cbn [fold_left fst].
  - rewrite integral_nil. ring.
  - rewrite IH, shear_qp_f, integral_cons. ring.
Qed.
Lemma folds_j G u qs fj d v : bil n (snd (fold_left (shear_qp n G u true) qs fj)) d v = bil n (snd fj) d v + integral qs (fun q => sf (G q) q v d).
Proof.
  revert fj. induction qs as [|q qs IH]; intros [f j]; cbn [fold_left snd].
  - rewrite integral_nil. ring.
  - rewrite IH, shear_qp_j, integral_cons. ring.
Qed.
(** weak form of the element *)
Definition WF (qs sq : list qpt) (S : qpt -> psect) (G : qpt -> nat -> nat -> R) (u d : dofs) : R :=
  integral qs (fun q => wf (S q) q u d) + (if pshears b then integral sq (fun q => sf (G q) q u d) else 0).
Definition WJ (qs sq : list qpt) (S : qpt -> psect) (G : qpt -> nat -> nat -> R) (u d v : dofs) : R :=
  integral qs (fun q => wj (S q) q u d v) + (if pshears b then integral sq (fun q => sf (G q) q v d) else 0).
Definition MISS (qs : list qpt) (S : qpt -> psect) (u d v : dofs) : R := integral qs (fun q => miss (S q) q u d v).
Lemma int_minus qs (x y : qpt -> R) : integral qs (fun q => x q - y q) = integral qs x - integral qs y.
Proof.
  transitivity (integral qs (fun q => x q + (-1) * y q)); [apply integral_ext; intros; ring|]. rewrite integral_add, integral_mul. ring.
Qed.
Lemma local_f qs sq S G u req d : dot6 n (fst (local_internal n nl b qs sq S G u req)) d = WF qs sq S G u d.
Proof.
  unfold local_internal, WF. destruct (pshears b).
  - rewrite folds_f, fold_f. cbn [fst]. rewrite dot_zf. ring.
  - rewrite fold_f. cbn [fst]. rewrite dot_zf. ring.
Qed.
Lemma local_j qs sq S G u d v : bil n (snd (local_internal n nl b qs sq S G u true)) d v = WJ qs sq S G u d v - MISS qs S u d v.
Proof.
  unfold local_internal, WJ, MISS. destruct (pshears b).
  - rewrite folds_j, fold_j, int_minus. cbn [snd]. rewrite bil_zj. ring.
  - rewrite fold_j, int_minus. cbn [snd]. rewrite bil_zj. ring.
Qed.
End B.
