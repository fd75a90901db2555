(** Piston theory on elements. *)
From Coq Require Import Reals Lra.
From Coquelicot Require Import Coquelicot.
From Coq Require Import List Arith Bool Lia.
From Verif Require Import Base BaseLemmas RBool Sens_Spec Sens_Proofs Sens_Proofs2 Heat_Proofs Solid_Model Solid_Spec Solid_Proofs2 Dof6_Model Beam_Model Beam_Spec Dof6_Proofs Beam_Proofs Beam_Proofs2 Beam_Props
  Plate_Model Plate_Spec Load_Model Load_Spec Load_Proofs.
Import ListNotations.
Open Scope R_scope.

Lemma passo_ok {A} (g : A -> qpt -> outcome A) h qs : (forall a q, In q qs -> g a q = Ok (h a q)) -> forall a, passo g qs a = Ok (fold_left h qs a).
Proof. induction qs as [|q qs IH]; intros H a; cbn [passo fold_left]; [reflexivity|]. rewrite H by now left. cbn [bind]. apply IH. intros; apply H; now right. Qed.
(** a functional that grows by a term at every point *)
Lemma fold_total {A} (h : A -> qpt -> A) (F : A -> R) (g : qpt -> R) qs : (forall a q, F (h a q) = F a + jxw q * g q) -> forall a, F (fold_left h qs a) = F a + integral qs g.
Proof.
  intros H. unfold integral. induction qs as [|q qs IH]; intros a; cbn [fold_left]; [rewrite total_nil; ring|]. rewrite IH, H, tcons. ring.
Qed.

Section P.
Variable n : nat.
Variable pr : qpt -> pfun.
Variable qs : list qpt.
Variables P X Xd : qpt -> R -> R -> R.
Hypothesis EP : forall q x y, In q qs -> pf (pr q) x y = Ok (P q x y).
Hypothesis EX : forall q x y, In q qs -> px (pr q) x y = Ok (X q x y).
Hypothesis EXd : forall q x y, In q qs -> pxd (pr q) x y = Ok (Xd q x y).

Lemma vm_w2 q u : vm n (b_w2 q) u 0 = value n q u 2.
Proof. unfold b_w2. rewrite vm_oset by (try lia; reflexivity). rewrite vm_zop. cbn [Nat.eqb]. unfold value. ring. Qed.
Lemma vm_w2' q u : vm n (b_w2 q) u 1 = 0.
Proof. unfold b_w2. rewrite vm_oset by (try lia; reflexivity). rewrite vm_zop. cbn [Nat.eqb]. ring. Qed.
Lemma vm_vk q u r : (r < 2)%nat -> vm n (b_vk q) u r = grad n q u 2 r.
Proof.
  intros Hr. unfold b_vk. rewrite !vm_oset by (try lia; intros; reflexivity). rewrite vm_zop. unfold grad, dX, dY.
  destruct r as [|[|]]; [| |lia]; cbn [Nat.eqb]; ring.
Qed.
Definition slope2 (vel : nat -> R) (q : qpt) (u : dofs) : R := sum 2 (fun i => vel i * grad n q u 2 i).
Definition step2 (vel : nat -> R) (u ud : dofs) (req : bool) (a : acc3) (q : qpt) : acc3 :=
  let '(f, jx, j) := a in
  let x := slope2 vel q u in let y := value n q ud 2 in
  let m22 := fun e r k => if (Nat.eqb r e && Nat.eqb k e)%bool then vel e else 0 in
  (plusf (jxw q) (vmt 2 (b_w2 q) (fun r => if Nat.eqb r 0 then P q x y * down 2 2 else 0)) f,
   if req then plusj (jxw q * Xd q x y * down 2 2) (rmt 2 (b_w2 q) (b_w2 q)) jx else jx,
   if req then plusj (jxw q * X q x y * down 2 2) (rmt 2 (b_w2 q) (lm 2 (b_vk q) (m22 1%nat)))
     (plusj (jxw q * X q x y * down 2 2) (rmt 2 (b_w2 q) (lm 2 (b_vk q) (m22 0%nat))) j) else j).
Lemma step2_ok vel u ud req a q : In q qs -> piston2_qp n pr vel u ud req a q = Ok (step2 vel u ud req a q).
Proof.
  intros Hq. unfold piston2_qp, step2. destruct a as [[f jx] j]. rewrite vm_w2.
  replace (sum 2 (fun i => vk_mat n q u i i * vel i)) with (slope2 vel q u) by (unfold slope2; cbn [sum vk_mat]; unfold dwdx, dwdy, grad, dX, dY; ring).
  rewrite EP by auto. cbn [bind]. destruct req; [|reflexivity]. rewrite EXd by auto. cbn [bind]. rewrite EX by auto. reflexivity.
Qed.
Lemma step2_f vel u ud req a q d : let '(f, _, _) := step2 vel u ud req a q in
  dot6 n f d = dot6 n (fst (fst a)) d + jxw q * (- P q (slope2 vel q u) (value n q ud 2) * value n q d 2).
Proof.
  unfold step2. destruct a as [[f jx] j]. cbn [fst]. rewrite dot_plusf, dot_vmt. cbn [sum Nat.eqb]. rewrite vm_w2. unfold down. cbn [Nat.eqb]. ring.
Qed.
Lemma step2_jx vel u ud a q d v : let '(_, jx, _) := step2 vel u ud true a q in
  bil n jx d v = bil n (snd (fst a)) d v + jxw q * (- Xd q (slope2 vel q u) (value n q ud 2) * value n q d 2 * value n q v 2).
Proof.
  unfold step2. destruct a as [[f jx] j]. cbn [fst snd]. rewrite bil_plusj, bil_rmt. cbn [sum]. rewrite !vm_w2, !vm_w2'. unfold down. cbn [Nat.eqb]. ring.
Qed.
Lemma step2_j vel u ud a q d v : let '(_, _, j) := step2 vel u ud true a q in
  bil n j d v = bil n (snd a) d v + jxw q * (- X q (slope2 vel q u) (value n q ud 2) * value n q d 2 * (vel 0%nat * grad n q v 2 0)).
Proof.
  unfold step2. destruct a as [[f jx] j]. cbn [fst snd]. rewrite !bil_plusj, !bil_rmt. cbn [sum]. rewrite !vm_w2, !vm_w2', !vm_lm. cbn [sum Nat.eqb andb].
  rewrite !vm_vk by lia. unfold down. cbn [Nat.eqb]. ring.
Qed.
Lemma slope2_eq T dir q U : slope2 (fun i => sum 3 (fun k => T k i * dir k)) q (to_local (Some T) U) = slope_along n q (Some T) dir U.
Proof. reflexivity. Qed.

Definition wforce (p : R) (k : nat) : R := if Nat.eqb k 2 then - p else 0.
(** what the routine for plates delivers *)
Lemma piston2_ok T dir U Ud req f jx j : exists f' jx' j', piston2 n false (Some T) pr dir qs U Ud req (f, jx, j) = Ok (f', jx', j')
  /\ carries n qs (Some T) (fun q => pressure_force 2 (P q (slope_along n q (Some T) dir U) (value n q (in_axes (Some T) Ud) 2))) f f'
  /\ (req = true -> forall d v, bil n (minusj jx' jx) d v = integral qs (fun q => Xd q (slope_along n q (Some T) dir U) (value n q (in_axes (Some T) Ud) 2)
        * value n q (in_axes (Some T) d) 2 * value n q (in_axes (Some T) v) 2))
  /\ (req = true -> forall d v, bil n (minusj j' j) d v = integral qs (fun q => X q (slope_along n q (Some T) dir U) (value n q (in_axes (Some T) Ud) 2)
        * value n q (in_axes (Some T) d) 2 * (vec_in_axes (Some T) dir 0 * grad n q (in_axes (Some T) v) 2 0)))
  /\ (req = false -> jx' = jx /\ j' = j).
Proof.
  set (t := Some T). set (vel := fun i => sum 3 (fun k => T k i * dir k)). set (u := to_local t U). set (ud := to_local t Ud).
  set (a := fold_left (step2 vel u ud req) qs (zf, zj, zj)).
  destruct a as [[lf ljx] lj] eqn:Ea.
  assert (E : piston2 n false t pr dir qs U Ud req (f, jx, j) = Ok (add_global t req (lf, ljx, lj) (f, jx, j))).
  { unfold piston2, t. cbn [negb assert_]. rewrite (passo_ok _ (step2 vel u ud req)) by (intros; now apply step2_ok). cbn [bind].
    f_equal. f_equal. exact Ea. }
  eexists _, _, _. split; [rewrite E; unfold add_global; reflexivity|]. split; [|split; [|split]].
  - intros d. rewrite dot_minusf, dot_plusf, dot_global.
    pose proof (fold_total (step2 vel u ud req) (fun x => dot6 n (fst (fst x)) (to_local t d)) (fun q => - P q (slope2 vel q u) (value n q ud 2) * value n q (to_local t d) 2) qs) as H.
    assert (K := H ltac:(intros b q; pose proof (step2_f vel u ud req b q (to_local t d)) as S; destruct (step2 vel u ud req b q) as [[? ?] ?]; exact S) (zf, zj, zj)).
    fold a in K. rewrite Ea in K. cbn [fst] in K. rewrite K, dot_zf. unfold force_work.
    rewrite (integral_ext qs (fun q => sum 3 _) (fun q => - P q (slope2 vel q u) (value n q ud 2) * value n q (to_local t d) 2)); [ring|].
    intros q _. cbn [sum]. unfold pressure_force. cbn [Nat.eqb]. unfold slope_along, slope2. rewrite <- in_axes_eq. unfold u, ud. rewrite <- !in_axes_eq. unfold vel. cbn [vec_in_axes t]. ring.
  - intros -> d v. rewrite bil_minusj, bil_plusj, bil_global.
    pose proof (fold_total (step2 vel u ud true) (fun x => bil n (snd (fst x)) (to_local t d) (to_local t v))
      (fun q => - Xd q (slope2 vel q u) (value n q ud 2) * value n q (to_local t d) 2 * value n q (to_local t v) 2) qs) as H.
    assert (K := H ltac:(intros b q; pose proof (step2_jx vel u ud b q (to_local t d) (to_local t v)) as S; destruct (step2 vel u ud true b q) as [[? ?] ?]; exact S) (zf, zj, zj)).
    fold a in K. rewrite Ea in K. cbn [fst snd] in K. rewrite K, bil_zj.
    rewrite (integral_ext qs _ (fun q => -1 * (Xd q (slope_along n q t dir U) (value n q (in_axes t Ud) 2) * value n q (in_axes t d) 2 * value n q (in_axes t v) 2))).
    + rewrite integral_mul. ring.
    + intros q _. rewrite !in_axes_eq. unfold ud, u, slope_along, slope2, vel. rewrite in_axes_eq. cbn [vec_in_axes t]. ring.
  - intros -> d v. rewrite bil_minusj, bil_plusj, bil_global.
    pose proof (fold_total (step2 vel u ud true) (fun x => bil n (snd x) (to_local t d) (to_local t v))
      (fun q => - X q (slope2 vel q u) (value n q ud 2) * value n q (to_local t d) 2 * (vel 0%nat * grad n q (to_local t v) 2 0)) qs) as H.
    assert (K := H ltac:(intros b q; pose proof (step2_j vel u ud b q (to_local t d) (to_local t v)) as S; destruct (step2 vel u ud true b q) as [[? ?] ?]; exact S) (zf, zj, zj)).
    fold a in K. rewrite Ea in K. cbn [fst snd] in K. rewrite K, bil_zj.
    rewrite (integral_ext qs _ (fun q => -1 * (X q (slope_along n q t dir U) (value n q (in_axes t Ud) 2) * value n q (in_axes t d) 2 * (vec_in_axes t dir 0 * grad n q (in_axes t v) 2 0)))).
    + rewrite integral_mul. ring.
    + intros q _. rewrite !in_axes_eq. unfold ud, u, slope_along, slope2, vel. rewrite in_axes_eq. cbn [vec_in_axes t]. ring.
  - intros ->. split; reflexivity.
Qed.

Lemma vm_v1 q u r : (r < 2)%nat -> vm n (b_v1 q) u r = if Nat.eqb r 0 then value n q u 1 else 0.
Proof. intros Hr. unfold b_v1. rewrite vm_oset by (try lia; reflexivity). rewrite vm_zop. unfold value. destruct r as [|[|]]; [| |lia]; cbn [Nat.eqb]; ring. Qed.
Lemma vm_w1 q u r : (r < 2)%nat -> vm n (b_w1 q) u r = if Nat.eqb r 1 then value n q u 2 else 0.
Proof. intros Hr. unfold b_w1. rewrite vm_oset by (try lia; reflexivity). rewrite vm_zop. unfold value. destruct r as [|[|]]; [| |lia]; cbn [Nat.eqb]; ring. Qed.
Lemma vm_vkv q u r : (r < 2)%nat -> vm n (vk_v q) u r = if Nat.eqb r 0 then dx n q u 1 else 0.
Proof. intros Hr. unfold vk_v. rewrite vm_oset by (try lia; reflexivity). rewrite vm_zop. unfold dx. destruct r as [|[|]]; [| |lia]; cbn [Nat.eqb]; ring. Qed.
Definition step1 (u ud : dofs) (req : bool) (a : acc3) (q : qpt) : acc3 :=
  let '(f, jx, j) := a in
  let x := dx n q u 1 in let y := value n q ud 1 in let x2 := dx n q u 2 in let y2 := value n q ud 2 in
  (plusf (jxw q) (vmt 2 (b_v1 q) (fun r => if Nat.eqb r 1 then P q x2 y2 * down 1 2 else 0))
     (plusf (jxw q) (vmt 2 (b_v1 q) (fun r => if Nat.eqb r 0 then P q x y * down 1 1 else 0)) f),
   if req then plusj (jxw q * Xd q x2 y2 * down 1 2) (rmt 2 (b_w1 q) (b_w1 q)) (plusj (jxw q * Xd q x y * down 1 1) (rmt 2 (b_v1 q) (b_v1 q)) jx) else jx,
   if req then plusj (jxw q * X q x2 y2 * down 1 2) (rmt 2 (b_w1 q) (vk_w q)) (plusj (jxw q * X q x y * down 1 1) (rmt 2 (b_v1 q) (vk_v q)) j) else j).
Lemma step1_ok u ud req a q : In q qs -> piston1_qp n pr u ud req a q = Ok (step1 u ud req a q).
Proof.
  intros Hq. unfold piston1_qp, step1. destruct a as [[f jx] j]. rewrite vm_v1, vm_w1 by lia. cbn [Nat.eqb]. cbv zeta. fold (dx n q u 1) (dx n q u 2).
  rewrite !EP by auto. cbn [bind]. destruct req; [|reflexivity]. rewrite EXd by auto. cbn [bind]. rewrite EX by auto. cbn [bind].
  rewrite EXd by auto. cbn [bind]. rewrite EX by auto. reflexivity.
Qed.
Lemma step1_f u ud req a q d : let '(f, _, _) := step1 u ud req a q in
  dot6 n f d = dot6 n (fst (fst a)) d + jxw q * (- P q (dx n q u 1) (value n q ud 1) * value n q d 1).
Proof.
  unfold step1. destruct a as [[f jx] j]. cbn [fst]. rewrite !dot_plusf, !dot_vmt. cbn [sum Nat.eqb]. rewrite !vm_v1 by lia. unfold down. cbn [Nat.eqb]. ring.
Qed.
Lemma step1_jx u ud a q d v : let '(_, jx, _) := step1 u ud true a q in
  bil n jx d v = bil n (snd (fst a)) d v + jxw q * (- Xd q (dx n q u 1) (value n q ud 1) * value n q d 1 * value n q v 1).
Proof.
  unfold step1. destruct a as [[f jx] j]. cbn [fst snd]. rewrite !bil_plusj, !bil_rmt. cbn [sum]. rewrite !vm_v1, !vm_w1 by lia. unfold down. cbn [Nat.eqb]. ring.
Qed.
Lemma step1_j u ud a q d v : let '(_, _, j) := step1 u ud true a q in
  bil n j d v = bil n (snd a) d v + jxw q * (- X q (dx n q u 1) (value n q ud 1) * value n q d 1 * dx n q v 1).
Proof.
  unfold step1. destruct a as [[f jx] j]. cbn [fst snd]. rewrite !bil_plusj, !bil_rmt. cbn [sum]. rewrite !vm_v1, !vm_w1, !vm_vkv by lia.
  unfold down. cbn [Nat.eqb]. ring.
Qed.
(** what the routine for beams delivers *)
Lemma piston1_ok t U Ud req f jx j : exists f' jx' j', piston1 n false t pr qs U Ud req (f, jx, j) = Ok (f', jx', j')
  /\ carries n qs t (fun q => pressure_force 1 (P q (dx n q (in_axes t U) 1) (value n q (in_axes t Ud) 1))) f f'
  /\ (req = true -> forall d v, bil n (minusj jx' jx) d v = integral qs (fun q => Xd q (dx n q (in_axes t U) 1) (value n q (in_axes t Ud) 1)
        * value n q (in_axes t d) 1 * value n q (in_axes t v) 1))
  /\ (req = true -> forall d v, bil n (minusj j' j) d v = integral qs (fun q => X q (dx n q (in_axes t U) 1) (value n q (in_axes t Ud) 1)
        * value n q (in_axes t d) 1 * dx n q (in_axes t v) 1))
  /\ (req = false -> jx' = jx /\ j' = j).
Proof.
  set (u := to_local t U). set (ud := to_local t Ud).
  set (a := fold_left (step1 u ud req) qs (zf, zj, zj)).
  destruct a as [[lf ljx] lj] eqn:Ea.
  assert (E : piston1 n false t pr qs U Ud req (f, jx, j) = Ok (add_global t req (lf, ljx, lj) (f, jx, j))).
  { unfold piston1. cbn [negb assert_]. rewrite (passo_ok _ (step1 u ud req)) by (intros; now apply step1_ok). cbn [bind].
    f_equal. f_equal. exact Ea. }
  eexists _, _, _. split; [rewrite E; unfold add_global; reflexivity|]. rewrite !in_axes_eq. split; [|split; [|split]].
  - intros d. rewrite dot_minusf, dot_plusf, dot_global.
    pose proof (fold_total (step1 u ud req) (fun x => dot6 n (fst (fst x)) (to_local t d)) (fun q => - P q (dx n q u 1) (value n q ud 1) * value n q (to_local t d) 1) qs) as H.
    assert (K := H ltac:(intros b q; pose proof (step1_f u ud req b q (to_local t d)) as S; destruct (step1 u ud req b q) as [[? ?] ?]; exact S) (zf, zj, zj)).
    fold a in K. rewrite Ea in K. cbn [fst] in K. rewrite K, dot_zf. unfold force_work.
    rewrite (integral_ext qs (fun q => sum 3 _) (fun q => - P q (dx n q u 1) (value n q ud 1) * value n q (to_local t d) 1)); [ring|].
    intros q _. cbn [sum]. unfold pressure_force. cbn [Nat.eqb]. rewrite in_axes_eq. unfold u, ud. ring.
  - intros -> d v. rewrite bil_minusj, bil_plusj, bil_global.
    pose proof (fold_total (step1 u ud true) (fun x => bil n (snd (fst x)) (to_local t d) (to_local t v))
      (fun q => - Xd q (dx n q u 1) (value n q ud 1) * value n q (to_local t d) 1 * value n q (to_local t v) 1) qs) as H.
    assert (K := H ltac:(intros b q; pose proof (step1_jx u ud b q (to_local t d) (to_local t v)) as S; destruct (step1 u ud true b q) as [[? ?] ?]; exact S) (zf, zj, zj)).
    fold a in K. rewrite Ea in K. cbn [fst snd] in K. rewrite K, bil_zj.
    rewrite (integral_ext qs _ (fun q => -1 * (Xd q (dx n q u 1) (value n q ud 1) * value n q (in_axes t d) 1 * value n q (in_axes t v) 1))).
    + rewrite integral_mul. unfold u, ud. ring.
    + intros q _. rewrite !in_axes_eq. ring.
  - intros -> d v. rewrite bil_minusj, bil_plusj, bil_global.
    pose proof (fold_total (step1 u ud true) (fun x => bil n (snd x) (to_local t d) (to_local t v))
      (fun q => - X q (dx n q u 1) (value n q ud 1) * value n q (to_local t d) 1 * dx n q (to_local t v) 1) qs) as H.
    assert (K := H ltac:(intros b q; pose proof (step1_j u ud b q (to_local t d) (to_local t v)) as S; destruct (step1 u ud true b q) as [[? ?] ?]; exact S) (zf, zj, zj)).
    fold a in K. rewrite Ea in K. cbn [fst snd] in K. rewrite K, bil_zj.
    rewrite (integral_ext qs _ (fun q => -1 * (X q (dx n q u 1) (value n q ud 1) * value n q (in_axes t d) 1 * dx n q (in_axes t v) 1))).
    + rewrite integral_mul. unfold u, ud. ring.
    + intros q _. rewrite !in_axes_eq. ring.
  - intros ->. split; reflexivity.
Qed.
End P.
