(** C238, C239: a moving wall, the matrices that are frozen, and sensitivities. *)
From Coq Require Import Reals.
From Coquelicot Require Import Coquelicot.
From Coq Require Import List Arith Bool Lra Lia FunctionalExtensionality.
From Verif Require Import Base BaseLemmas RBool Stre_Proofs Stre_Proofs2 Flui_Model Flui_Spec Flui_Proofs Flui_Proofs2 Flui_Proofs3 Flui_Proofs5 Flui_Proofs6 Flui_Props Heat_Proofs Sens_Proofs2 Cfe_Model Cfe_Spec Cfe_Proofs Cfe_Proofs2 Cfe_Proofs3 Cfe_Proofs4 Cfe_Proofs5 Cfe_Props Cfe_Props2 Cfe_Props3.
From Verif Require Import Fdf_Model Cft_Model Cft_Spec Cft_Props.
Import ListNotations.
Open Scope R_scope.

(** The velocity of the wall grows by 3 and its normal turns by 2 per unit, in a flow whose density grows. *)
Definition wall1 : mside := ([q1], fun t => SlipWall (mkSlip (Some (fun _ _ => t * 3)) (Some (fun _ _ => t * 2))), mkMo (fun _ _ => 3) (fun _ _ => 2)).
Lemma path1_moving : moving path1 0 dir1.
Proof.
  intros v a. destruct v as [|v]; cbn.
  - apply (der_ext (fun t => flow1 0%nat a + t) _ _ (0 + 1)); [reflexivity|ring|]. apply der_plus; [apply der_const|apply @is_derive_id].
  - apply der_const.
Qed.
Lemma line_rate c : is_derive (fun t => t * c) 0 c.
Proof. apply (der_is _ _ (1 * c + 0 * 0)); [ring|]. apply (der_mult (fun t => t) (fun _ => c)); [apply @is_derive_id|apply der_const]. Qed.
Example C238_witness : moving path1 0 dir1 /\ side_moves (snd (fst wall1)) 0 (snd wall1) /\
  (forall sc, In sc (sides_at [wall1] 0) -> far_unit 1 sc /\ settled 1 2 1 2 (path1 0) sc) /\
  locally 0 (fun t => exists f J, side_external_residual 1 2 1 2 (sides_at [wall1] t) (path1 t) (ev0, em0) = Ok (f, J)) /\
  exists g, lin_sides 1 2 1 2 (lin_at [wall1] 0) (path1 0) dir1 ev0 = Ok g /\ g 0%nat 0%nat = 1.
Proof.
  assert (D1 : valid_dim 1) by (left; auto). assert (G1 : 0 < 1 < 2) by lra.
  assert (FU : forall t sc, In sc (sides_at [wall1] t) -> far_unit 1 sc) by (intros t sc [<-|[]]; exact I).
  assert (OKN : locally 0 (fun t => exists f J, side_external_residual 1 2 1 2 (sides_at [wall1] t) (path1 t) (ev0, em0) = Ok (f, J))).
  { generalize path1_near. apply filter_imp. intros t Ht.
    destruct (proj2 (C186_runs 1 2 1 2 D1 G1 (sides_at [wall1] t) (path1 t) (ev0, em0) (FU t))) as ([f J] & E); [|eauto].
    intros qs c [E|[]]. injection E as <- <-. split; [congruence|]. split; [intros b Eb _; injection Eb as <-; discriminate|]. intros _. exact Ht. }
  split; [exact path1_moving|]. split.
  { left. exists (fun t => mkSlip (Some (fun _ _ => t * 3)) (Some (fun _ _ => t * 2))). split; [reflexivity|]. intros q i. cbn. split; apply line_rate. }
  split; [intros sc [<-|[]]; split; exact I|]. split; [exact OKN|].
  destruct (lin_sides_ok 1 2 1 2 D1 G1 (path1 0) dir1 (lin_at [wall1] 0) ev0) as (g & E & Q).
  { intros sc [<-|[]]. split; [|exact I]. split; [intros [_ H]; discriminate|]. intros q I. apply (good_iff 1 2 1 2 G1). exact (locally_singleton _ _ path1_near q I). }
  exists g. split; [exact E|]. rewrite Q. cbn [lin_at map wall1 fst snd tot]. unfold lin_part, adds; cbn [fst snd tot]. unfold lin_flux. cbv zeta.
  assert (U1 : forall i, uvec 1 (state_at 1 2 1 2 (path1 0) q1) i = match i with 0%nat => 1 | _ => 0 end).
  { intros i. destruct i as [|[|[|]]]; auto. unfold state_at. cbn [uvec prim_of p_u1]. rewrite !path1_U. lra. }
  rewrite path1_U. unfold slip_speed, dot3. cbn [sum moved_by at_pt sl_vel sl_rot mo_vel mo_rot Nat.eqb Nat.add Nat.ltb Nat.leb andb]. rewrite !U1. cbn. unfold ev0. lra.
Qed.

(** A uniform flow whose density grows, with this wall. *)
Definition path0 (t : R) : evec := fun v _ => match v with 0%nat => 1 + t | 1%nat => 1 | _ => 3 end.
Example C239_witness : moving path0 0 dir1 /\ moving (fun t _ _ => t * 1) 0 (fun _ _ => 1) /\
  (forall q c v, In q [q1] -> (c < 1)%nat -> (v < 3)%nat -> fe_dU 2 q (path0 0) c v = 0) /\
  locally 0 (fun t => exists fm fx md mj jx, fluid_calc 1 2 1 2 (fun _ _ => mx0) None [q1] (lin_at [wall1] t) true (path0 t) (fun _ _ => t * 1) = Ok (fm, fx, md, mj, jx)).
Proof.
  assert (D1 : valid_dim 1) by (left; auto). assert (G1 : 0 < 1 < 2) by lra.
  split; [|split; [|split]].
  - intros v a. destruct v as [|[|v]]; cbn; try apply der_const.
    apply (der_ext (fun t => 1 + t) _ _ (0 + 1)); [reflexivity|ring|]. apply der_plus; [apply der_const|apply @is_derive_id].
  - intros v a. apply line_rate.
  - intros q c v [<-|[]] _ _. unfold fe_dU. destruct v as [|[|v]]; cbn; lra.
  - assert (PU : forall t v, fe_U 2 q1 (path0 t) v = fe_U 2 q1 (path1 t) v) by (intros t v; rewrite path1_U; unfold fe_U; destruct v as [|[|v]]; cbn; lra).
    generalize path1_near. apply filter_imp. intros t Ht.
    assert (PH : physical 1 2 1 2 (path0 t) [q1]).
    { intros q I. specialize (Ht q I). destruct I as [<-|[]]. unfold state_at in *.
      replace (fe_U 2 q1 (path0 t)) with (fe_U 2 q1 (path1 t)) by (apply functional_extensionality; intros; symmetry; apply PU). exact Ht. }
    unfold fluid_calc.
    destruct (proj2 (C184_runs 1 2 1 2 D1 G1 (fun _ _ => mx0) None [q1] (path0 t)) PH) as (f1 & j1 & E1). rewrite E1. cbn [bind].
    destruct (proj2 (C186_runs 1 2 1 2 D1 G1 (map fst (lin_at [wall1] t)) (path0 t) (f1, j1) ltac:(intros sc [<-|[]]; exact I))) as ([f2 j2] & E2).
    { intros qs c [E|[]]. injection E as <- <-. split; [congruence|]. split; [intros b Eb _; injection Eb as <-; discriminate|]. intros _. exact PH. }
    rewrite E2. cbn [bind]. unfold velocity_residual. cbn [over].
    destruct (vel_step_ok 1 2 1 2 D1 (fun _ _ => mx0) (path0 t) (fun _ _ => t * 1) q1 (ev0, em0)) as (f3 & j3 & E3 & _).
    { apply (good_iff 1 2 1 2 G1). apply PH. left; reflexivity. }
    rewrite E3. cbn [bind]. eexists _, _, _, _, _. reflexivity.
Qed.

(** The matrices of the interior are frozen: the product is not the derivative of the residual in a flow that is not uniform. *)
Theorem C239_frozen_refuted : exists tau_of qps X V (fm fx : R -> evec) (md mj jx : R -> emat) g v a (df : R),
  moving X 0 V /\ locally 0 (fun t => fluid_calc 1 2 1 2 tau_of None qps [] true (X t) ev0 = Ok (fm t, fx t, md t, mj t, jx t)) /\
  (forall q i j, In q qps -> ex_derive (fun t => tau_of q (state_at 1 2 1 2 (X t) q) i j) 0) /\
  fluid_product 1 2 1 2 tau_of None qps [] (X 0) ev0 V ev0 = Ok g /\ (v < 3)%nat /\ (a < 2)%nat /\
  is_derive (fun t => fm t v a + fx t v a) 0 df /\ df <> g v a.
Proof.
  assert (D1 : valid_dim 1) by (left; auto). assert (G1 : 0 < 1 < 2) by lra.
  destruct C185_frozen_refuted as (tau_of & qps & X & V & f & J & v & a & df & M & L & HT & Hv & Ha & DF & NE).
  set (rv := fun t => match velocity_residual 1 2 1 2 tau_of qps (X t) ev0 with Ok r => r | Fault _ => (ev0, em0, em0) end).
  assert (LV : locally 0 (fun t => velocity_residual 1 2 1 2 tau_of qps (X t) ev0 = Ok (fst (fst (rv t)), snd (fst (rv t)), em0) /\
    fluid_calc 1 2 1 2 tau_of None qps [] true (X t) ev0 = Ok (fst (fst (rv t)), f t, snd (fst (rv t)), em0, J t) /\ forall v a, (v < 3)%nat -> fst (fst (rv t)) v a = 0)).
  { revert L. apply filter_imp. intros t Ht.
    assert (K := proj1 (internal_sum 1 2 1 2 D1 G1 tau_of None qps (X t) _ _ Ht)).
    destruct (over_run (vel_step 1 2 1 2 tau_of (X t) ev0) (fun q => vel_f 1 2 1 2 (tau_of q (state_at 1 2 1 2 (X t) q)) ev0 q (state_at 1 2 1 2 (X t) q)) (fun q => vel_j 1 2 1 (tau_of q (state_at 1 2 1 2 (X t) q)) q (state_at 1 2 1 2 (X t) q)) (good 1 2 1 2 (X t))) with (l := qps) (acc := (ev0, em0)) as (fv & jv & E & _); auto.
    { intros; apply vel_step_ok; auto. }
    assert (EV : velocity_residual 1 2 1 2 tau_of qps (X t) ev0 = Ok (fv, jv, em0)) by (unfold velocity_residual; rewrite E; reflexivity).
    unfold rv. rewrite EV. cbn [fst snd]. split; [reflexivity|]. split.
    - unfold fluid_calc. rewrite Ht. cbn [bind map side_external_residual over]. rewrite EV. reflexivity.
    - intros w b Hw. rewrite (C185_rate 1 2 1 2 D1 G1 tau_of qps (X t) ev0 fv jv em0 EV w b Hw). unfold emul, ev0. apply sum_0; intros; apply sum_0; intros; ring. }
  destruct (locally_singleton _ _ LV) as (EV & EC & _).
  exists tau_of, qps, X, V, (fun t => fst (fst (rv t))), f, (fun t => snd (fst (rv t))), (fun _ => em0), J.
  eexists. exists v, a, df. split; [exact M|]. split; [revert LV; apply filter_imp; intros t Ht; apply Ht|]. split; [exact HT|].
  split; [unfold fluid_product; rewrite (C185_linearized 1 2 1 2 tau_of None qps (X 0) V _ _ (locally_singleton _ _ L)); cbn [bind fst lin_sides over]; rewrite EV; reflexivity|].
  split; [exact Hv|]. split; [exact Ha|]. split.
  - apply (der_near _ (fun t => f t v a)); [|exact DF]. revert LV. apply filter_imp. intros t (_ & _ & Z). rewrite Z by auto. ring.
  - intros E. apply NE. rewrite E. unfold ev_plus, ev0.
    assert (Z1 : emul 1 2 em0 V v a = 0) by (unfold emul, em0; apply sum_0; intros; apply sum_0; intros; ring).
    assert (Z2 : forall K, emul 1 2 K (fun _ _ => 0) v a = 0) by (intros; unfold emul; apply sum_0; intros; apply sum_0; intros; ring).
    rewrite Z1, Z2. ring.
Qed.

Section Sens.
Variables (d : nat) (cp cv : R) (nphi : nat).
Hypothesis D : valid_dim d.
Hypothesis G : 0 < cv < cp.
(** In the plane: the sensitivity to the density of the flow far away. *)
Theorem C239_density_partial {P : Type} : forall (p : P) fl tau_of shock qps qs mo x xd (fm fx : R -> evec) (md mj jx : R -> emat) gm gx, d = 2%nat -> g_rho (fl_gas fl) <> 0 ->
  (forall rho, fluid_calc d cp cv nphi tau_of shock qps [(qs, far_of d (with_density fl rho), mo)] true x xd = Ok (fm rho, fx rho, md rho, mj rho, jx rho)) ->
  (forall q, In q qs -> unit_normal d (fq_n q)) ->
  fluid_sens d cp cv nphi [(qs, far_of d fl, mo)] p fl x = Ok (gm, gx) ->
  forall v a, (v < 2 + d)%nat -> is_derive (fun rho => fm rho v a) (g_rho (fl_gas fl)) (gm v a) /\ is_derive (fun rho => fx rho v a) (g_rho (fl_gas fl)) (gx v a).
Proof.
  intros p fl tau_of shock qps qs mo x xd fm fx md mj jx gm gx D2 R0 H UN HS v a Hv.
  unfold fluid_sens in HS. cbn [map fst] in HS.
  destruct (side_external_residual_sensitivity _ _ _ _ _ _ _ _ _) as [g|] eqn:ES; [|discriminate]. cbn [bind] in HS. injection HS as <- <-.
  assert (FU : forall rho sc, In sc [(qs, far_of d (with_density fl rho), mo)] -> far_unit d (fst sc)) by (intros rho sc [<-|[]]; exact UN).
  assert (C := fun rho => calc_inv d cp cv nphi D G tau_of shock qps _ true x xd _ _ _ _ _ (H rho) (FU rho)). cbn [map fst] in C.
  set (rs := fun rho => match side_external_residual d cp cv nphi [(qs, far_of d (with_density fl rho))] x (ev0, em0) with Ok r => r | Fault _ => (ev0, em0) end).
  assert (HR : forall rho, side_external_residual d cp cv nphi [(qs, far_of d (with_density fl rho))] x (ev0, em0) = Ok (fst (rs rho), snd (rs rho))).
  { intros rho. destruct (C rho) as (f1 & j1 & f2 & j2 & md' & _ & E2 & _). unfold rs. rewrite E2. reflexivity. }
  destruct (C 0) as (f1 & j1 & f20 & j20 & md0 & E1 & _ & E3 & _).
  split.
  - apply (der_ext (fun _ => fm 0 v a) _ _ 0); [|reflexivity|apply der_const].
    intros rho. destruct (C rho) as (? & ? & ? & ? & ? & _ & _ & E & _). rewrite E3 in E. injection E as E _. now rewrite E.
  - assert (DS := C189_density_partial d cp cv nphi D G p fl qs x (fun r => fst (rs r)) (fun r => snd (rs r)) ev0 g D2 R0 HR UN ES v a Hv).
    apply (der_ext (fun rho => f1 v a + fst (rs rho) v a) _ _ (0 + (g v a - ev0 v a))); [|unfold ev0; ring|apply der_plus; [apply der_const|exact DS]].
    intros rho. destruct (C rho) as (f1' & j1' & f2 & j2 & md' & E1' & E2 & _ & F & _). rewrite F. rewrite E1 in E1'. injection E1' as <- _. unfold rs. rewrite E2. reflexivity.
Qed.
End Sens.
(** The parameter is not looked at: the same is returned for the Mach number. *)
Theorem C239_mach_refuted {P : Type} (p : P) : exists fl qs mo x (fm fx : R -> evec) (md mj jx : R -> emat) gm gx v a (df : R),
  (forall m, fluid_calc 2 2 1 1 (fun _ _ => mx0) None [] [(qs, far_of 2 (with_mach fl m), mo)] true x ev0 = Ok (fm m, fx m, md m, mj m, jx m)) /\
  (forall q, In q qs -> unit_normal 2 (fq_n q)) /\
  fluid_sens 2 2 1 1 [(qs, far_of 2 fl, mo)] p fl x = Ok (gm, gx) /\ (v < 4)%nat /\ (a < 1)%nat /\
  is_derive (fun m => fx m v a) (fl_mach fl) df /\ df <> gx v a.
Proof.
  destruct (C189_mach_refuted p) as (fl & qs & x & f & j & f' & v & a & df & H & UN & HS & Hv & Ha & DF & NE).
  exists fl, qs, (mkMo (fun _ _ => 0) (fun _ _ => 0)), x, (fun _ => ev0), f, (fun _ => em0), (fun _ => em0), j, ev0, f', v, a, df.
  split; [|split; [exact UN|split; [|split; [exact Hv|split; [exact Ha|split; [exact DF|exact NE]]]]]].
  - intros m. unfold fluid_calc. cbn [internal_residual over bind map fst velocity_residual]. rewrite H. reflexivity.
  - unfold fluid_sens. cbn [map fst]. rewrite HS. reflexivity.
Qed.
Print Assumptions C238_sides.
Print Assumptions C238_still.
Print Assumptions C238_refused.
Print Assumptions C239_balance.
Print Assumptions C239_rate.
Print Assumptions C239_asked.
Print Assumptions C239_product.
Print Assumptions C239_derivative_partial.
Print Assumptions C239_frozen_refuted.
Print Assumptions C239_density_partial.
Print Assumptions C239_mach_refuted.
