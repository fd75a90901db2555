(** Piston theory: the pressure and its derivatives. *)
From Coq Require Import Reals Lra.
From Coquelicot Require Import Coquelicot.
From Coq Require Import List Arith Bool Lia.
From Verif Require Import Base BaseLemmas RBool Sens_Spec Solid_Model Solid_Spec Dof6_Model Beam_Spec Load_Model Load_Spec.
Import ListNotations.
Open Scope R_scope.

Lemma finite_ok order fl x : supersonic fl -> finite order fl x = Ok x.
Proof.
  intros [H1 H2]. unfold finite. replace (fM fl * fM fl) with (fM fl ^ 2) by ring. destruct (rltb 1 (fM fl ^ 2)) eqn:E; [|apply rltb_false in E; lra].
  destruct (reqb (fV fl) 0) eqn:E2; [apply reqb_true in E2; contradiction|]. rewrite andb_false_r. reflexivity.
Qed.
Lemma rpow32 b : 0 < b -> Rpower (b * b) (3 / 2) = b * b * b.
Proof.
  intros Hb. replace (3 / 2) with (1 + / 2) by lra. rewrite Rpower_plus, Rpower_1 by nra. rewrite Rpower_sqrt by nra.
  rewrite sqrt_square by lra. ring.
Qed.
Lemma beta M : 1 < M ^ 2 -> exists b, 0 < b /\ sqrt (M * M - 1) = b /\ M * M - 1 = b * b.
Proof.
  intros H. exists (sqrt (M * M - 1)). split; [apply sqrt_lt_R0; nra|]. split; [reflexivity|]. symmetry. apply sqrt_sqrt. nra.
Qed.
Lemma pressure_eq order fl x y : supersonic fl -> pressure_val order fl x y = piston order fl (downwash fl x y).
Proof.
  intros [H1 H2]. unfold pressure_val, piston, downwash, v3, v2, v1, v0, Mf. destruct (beta _ H1) as (b & Hb & E1 & E2).
  replace (fM fl ^ 2 - 2) with (fM fl * fM fl - 2) by ring. replace (fM fl ^ 2 - 1) with (fM fl * fM fl - 1) by ring. rewrite E1, E2.
  destruct order as [|[|[|[|order]]]]; cbn [by_order Nat.eqb orb]; field; lra.
Qed.
Section D.
Variable order : nat.
Variables V M rho g x y : R -> R.
Variables dV dM drho dg dx dy t0 : R.
Hypothesis DV : is_derive V t0 dV.
Hypothesis DM : is_derive M t0 dM.
Hypothesis Drho : is_derive rho t0 drho.
Hypothesis Dg : is_derive g t0 dg.
Hypothesis Dx : is_derive x t0 dx.
Hypothesis Dy : is_derive y t0 dy.
Hypothesis HM : 1 < M t0 ^ 2.
Hypothesis HV : V t0 <> 0.
Let fl s := mkFlow (V s) (M s) (rho s) (g s).
Let d := mkFlow dV dM drho dg.
Lemma exd (f : R -> R) (x0 l : R) : is_derive f x0 l -> ex_derive f x0. Proof. intros H. now exists l. Qed.
Ltac go := evar_last; [auto_derive; [repeat split; try exact I; try first [eapply exd; eassumption|exact HV|nra|apply Rgt_not_eq, sqrt_lt_R0; nra|let E := fresh in intros E; nra]|reflexivity]|].
Ltac fin := rewrite ?(is_derive_unique (fun t : R => V t) _ _ DV), ?(is_derive_unique (fun t : R => M t) _ _ DM), ?(is_derive_unique (fun t : R => rho t) _ _ Drho),
    ?(is_derive_unique (fun t : R => g t) _ _ Dg), ?(is_derive_unique (fun t : R => x t) _ _ Dx), ?(is_derive_unique (fun t : R => y t) _ _ Dy);
  destruct (beta _ HM) as (b & Hb & E1 & E2);
  replace (M t0 * M t0 + - (1)) with (M t0 * M t0 - 1) by ring; replace (M t0 * M t0 + - (2)) with (M t0 * M t0 - 2) by ring; rewrite ?E1, ?E2, ?rpow32 by lra;
  replace (M t0 * M t0 - 2) with (b * b - 1) by lra; field; lra.
Ltac all_orders := destruct order as [|[|[|[|o]]]]; cbn [by_order]; go; fin.
Lemma der_pressure : is_derive (fun s => pressure_val order (fl s) (x s) (y s)) t0 (pressure_der_val order (fl t0) d (x t0) (y t0) dx dy).
Proof. unfold pressure_val, pressure_der_val, v3, v2, v1, v0, Mf. cbn [fV fM frho fgam fl d]. all_orders. Qed.
Variables xc yc : R.
Lemma der_dpdx : is_derive (fun s => dpdx_val order (fl s) xc yc) t0 (dpdx_der_val order (fl t0) d xc yc).
Proof. unfold dpdx_val, dpdx_der_val, v3, v2, v1, v0, Mf. cbn [fV fM frho fgam fl d]. all_orders. Qed.
Lemma der_dpdxdot : is_derive (fun s => dpdxdot_val order (fl s) xc yc) t0 (dpdxdot_der_val order (fl t0) d xc yc).
Proof. unfold dpdxdot_val, dpdxdot_der_val, v3, v2, v1, v0, Mf. cbn [fV fM frho fgam fl d]. all_orders. Qed.
End D.
