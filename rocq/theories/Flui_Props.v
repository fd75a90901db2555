(** Theorems about the compressible flow kernel (C59, C83-C90). *)
From Coq Require Import List Arith Bool Reals Lra Lia.
From Verif Require Import Base BaseLemmas RBool Stre_Proofs Stre_Proofs2 Flui_Model Flui_Spec Flui_Proofs Flui_Proofs2 Flui_Proofs3 Flui_Proofs4 Flui_Proofs5 Flui_Proofs6.
Import ListNotations.
Open Scope R_scope.

(** What a successful initialisation says. *)
Lemma prim_init_ok d cp cv visc U s : 0 < cv < cp -> prim_init d cp cv visc U = Ok s ->
  s = prim_of d cp cv visc U /\ 0 < p_rho s /\ 0 < p_T s /\ 0 < p_p s.
Proof.
  intros G H. unfold prim_init in H. cbv zeta in H.
  destruct (reqb (p_rho (prim_of d cp cv visc U)) 0) eqn:A; [discriminate|].
  destruct (reqb cv 0); [discriminate|].
  destruct (rleb (cp / cv * (cp - cv) * p_T (prim_of d cp cv visc U)) 0) eqn:B; [discriminate|].
  destruct (rltb (p_rho (prim_of d cp cv visc U)) 0) eqn:C; [discriminate|].
  destruct (rleb (p_p (prim_of d cp cv visc U)) 0) eqn:E; [discriminate|].
  destruct ((visc && _)%bool); [discriminate|]. injection H as <-.
  apply reqb_false in A. apply rleb_false in B, E. apply rltb_false in C.
  repeat split; auto.
  - lra.
  - assert (Q : 0 < cp / cv * (cp - cv)) by (apply Rmult_lt_0_compat; [apply Rdiv_lt_0_compat|]; lra).
    destruct (Rlt_dec 0 (p_T (prim_of d cp cv visc U))); auto. exfalso.
    assert (cp / cv * (cp - cv) * p_T (prim_of d cp cv visc U) <= cp / cv * (cp - cv) * 0) by (apply Rmult_le_compat_l; lra). lra.
Qed.
Lemma prim_init_good d cp cv visc U : 0 < cv < cp -> 0 < U 0%nat -> 0 < p_T (prim_of d cp cv visc U) -> prim_init d cp cv visc U = Ok (prim_of d cp cv visc U).
Proof.
  intros G R T. unfold prim_init. cbv zeta.
  assert (Q : 0 < cp / cv * (cp - cv)) by (apply Rmult_lt_0_compat; [apply Rdiv_lt_0_compat|]; lra).
  assert (P : 0 < p_p (prim_of d cp cv visc U)).
  { change (p_p (prim_of d cp cv visc U)) with ((cp - cv) * p_T (prim_of d cp cv visc U) * U 0%nat). apply Rmult_lt_0_compat; [apply Rmult_lt_0_compat; lra|auto]. }
  assert (PT := Rmult_lt_0_compat _ _ Q T).
  change (p_rho (prim_of d cp cv visc U)) with (U 0%nat).
  destruct (reqb (U 0%nat) 0) eqn:A; [apply reqb_true in A; lra|].
  destruct (reqb cv 0) eqn:B; [apply reqb_true in B; lra|].
  destruct (rleb (cp / cv * (cp - cv) * p_T (prim_of d cp cv visc U)) 0) eqn:C; [apply rleb_true in C; lra|].
  destruct (rltb (U 0%nat) 0) eqn:E; [apply rltb_true in E; lra|].
  destruct (rleb (p_p (prim_of d cp cv visc U)) 0) eqn:F; [apply rleb_true in F; lra|].
  destruct (rltb (p_T (prim_of d cp cv visc U)) 0) eqn:H; [apply rltb_true in H; lra|].
  rewrite andb_false_r. reflexivity.
Qed.

(** ** C59: states and free stream *)
(** The conservative variables rebuilt from the initialised state are those it was initialised with. *)
Theorem state_round_trip d cp cv visc U s : valid_dim d -> 0 < cv < cp -> prim_init d cp cv visc U = Ok s ->
  forall i, (i < 2 + d)%nat -> cons_of d cv (prim_vec d s) i = U i.
Proof.
  intros D G H. destruct (prim_init_ok _ _ _ _ _ _ G H) as (-> & R & T & P). cbn in R. clear H T P.
  dims D; cbn [Nat.add]; below; cbn; field; lra.
Qed.
(** Conversely every density, velocity and temperature that is admissible is recovered. *)
Theorem state_round_trip' d cp cv visc q : valid_dim d -> 0 < cv < cp -> 0 < q 0%nat -> 0 < q (d + 1)%nat ->
  exists s, prim_init d cp cv visc (cons_of d cv q) = Ok s /\ (forall i, (i < 2 + d)%nat -> prim_vec d s i = q i) /\
    p_p s = p_rho s * (cp - cv) * p_T s /\ p_a s * p_a s = cp / cv * (cp - cv) * p_T s /\ 0 < p_a s.
Proof.
  intros D G R T. exists (prim_of d cp cv visc (cons_of d cv q)).
  assert (TT : p_T (prim_of d cp cv visc (cons_of d cv q)) = q (d + 1)%nat).
  { dims D; cbn in *; field; lra. }
  assert (Q : 0 < cp / cv * (cp - cv)) by (apply Rmult_lt_0_compat; [apply Rdiv_lt_0_compat|]; lra).
  assert (PA : 0 < cp / cv * (cp - cv) * q (d + 1)%nat) by (apply Rmult_lt_0_compat; auto).
  split; [apply prim_init_good; [auto|exact R|rewrite TT; auto]|]. repeat split.
  - intros i Hi. dims D; cbn [Nat.add] in *; revert i Hi; below; try exact TT; cbn; field; lra.
  - cbn. ring.
  - change (p_a (prim_of d cp cv visc (cons_of d cv q))) with (sqrt (cp / cv * (cp - cv) * p_T (prim_of d cp cv visc (cons_of d cv q)))). rewrite TT. apply sqrt_sqrt. lra.
  - change (p_a (prim_of d cp cv visc (cons_of d cv q))) with (sqrt (cp / cv * (cp - cv) * p_T (prim_of d cp cv visc (cons_of d cv q)))). rewrite TT. apply sqrt_lt_R0. auto.
Qed.
(** The components of the flow vector that the analysis has no equation for are zero. *)
Definition flow_in_dim (d : nat) (f : flight) : Prop := forall i, (d <= i < 3)%nat -> fl_dir f i = 0.
Lemma flight_unit f f' : flight_init f = Ok f' -> fl_gas f' = fl_gas f /\ fl_mach f' = fl_mach f /\
  fl_dir f' 0 * fl_dir f' 0 + fl_dir f' 1 * fl_dir f' 1 + fl_dir f' 2 * fl_dir f' 2 = 1 /\
  (exists n, 0 < n /\ forall i, fl_dir f i = n * fl_dir f' i) /\ 0 < g_rho (fl_gas f) /\ 0 < g_T (fl_gas f).
Proof.
  unfold flight_init, gas_init, assert_. intros H.
  destruct (rltb 0 (g_rho (fl_gas f))) eqn:A; [|discriminate]. destruct (rltb 0 (g_T (fl_gas f))) eqn:B; [|discriminate].
  destruct (rltb 0 (g_cp (fl_gas f))); [|discriminate]. destruct (rltb 0 (g_cv (fl_gas f))); [|discriminate]. cbn [bind] in H. cbv zeta in H.
  apply rltb_true in A, B. destruct f as [g m [[x y] z]]. cbn [fl_vec fl_gas fl_mach norm3] in *.
  destruct (reqb (sqrt (x * x + y * y + z * z)) 0) eqn:C; [discriminate|]. apply reqb_false in C. injection H as <-. cbn [fl_gas fl_mach].
  assert (P : 0 <= x * x + y * y + z * z) by (pose proof (Rle_0_sqr x); pose proof (Rle_0_sqr y); pose proof (Rle_0_sqr z); unfold Rsqr in *; lra).
  pose proof (sqrt_sqrt _ P) as S. pose proof (sqrt_pos (x * x + y * y + z * z)) as S0. set (n := sqrt (x * x + y * y + z * z)) in *. clearbody n.
  repeat split; auto.
  - unfold fl_dir; cbn [fl_vec]. replace (x / n * (x / n) + y / n * (y / n) + z / n * (z / n)) with ((x * x + y * y + z * z) / (n * n)) by (field; auto). rewrite S. field. rewrite <- S. apply Rmult_integral_contrapositive; split; auto.
  - exists n. split; [lra|]. intros i. unfold fl_dir; cbn [fl_vec]. destruct i as [|[|]]; field; auto.
Qed.
(** The free stream has the density, temperature, pressure, speed of sound, Mach number and direction the
    user set. *)
Theorem free_stream_state_partial d f f' visc : valid_dim d -> 0 < g_cv (fl_gas f) < g_cp (fl_gas f) ->
  flight_init f = Ok f' -> flow_in_dim d f ->
  exists U s, infinity_vars d f' = Ok U /\ prim_init d (g_cp (fl_gas f)) (g_cv (fl_gas f)) visc U = Ok s /\
    p_rho s = g_rho (fl_gas f) /\ p_T s = g_T (fl_gas f) /\ p_p s = g_p (fl_gas f) /\ p_a s = g_a (fl_gas f) /\
    p_mach s = Rabs (fl_mach f) /\
    exists n, 0 < n /\ forall i, (i < d)%nat -> uvec d s i = fl_mach f * g_a (fl_gas f) * (fl_dir f i / n).
Proof.
  intros D G H IN. destruct (flight_unit _ _ H) as (E1 & E2 & UN & (n & N & EN) & R & T). rewrite <- E1, <- E2 in *.
  set (g := fl_gas f') in *. set (M := fl_mach f') in *.
  assert (Z : forall i, (d <= i < 3)%nat -> fl_dir f' i = 0) by (intros i Hi; pose proof (IN i Hi) as Q; rewrite EN in Q; apply Rmult_integral in Q; destruct Q; [lra|auto]).
  assert (EU : exists U, infinity_vars d f' = Ok U /\ U 0%nat = g_rho g /\ (forall i, (i < d)%nat -> U (i + 1)%nat = fl_rho_u f' i) /\ U (d + 1)%nat = fl_rho_e f').
  { dims D; eexists; (split; [reflexivity|]); (split; [reflexivity|]); (split; [|reflexivity]); intros i Hi; destruct i as [|[|[|]]]; try lia; reflexivity. }
  destruct EU as (U & EU & U0 & UI & UE). exists U, (prim_of d (g_cp g) (g_cv g) visc U). split; auto.
  assert (DI : sum d (fun i => fl_dir f' i * fl_dir f' i) = 1).
  { rewrite <- UN. dims D; cbn [sum]; try rewrite (Z 1%nat) by lia; try rewrite (Z 2%nat) by lia; ring. }
  set (vel := fl_vel f').
  assert (UV : forall i, (i < d)%nat -> U (i + 1)%nat / U 0%nat = vel * fl_dir f' i) by (intros i Hi; rewrite UI, U0 by auto; unfold fl_rho_u; fold g; fold vel; field; lra).
  assert (KK : p_k (prim_of d (g_cp g) (g_cv g) visc U) = (1/2) * (vel * vel)).
  { replace (1 / 2 * (vel * vel)) with (1 / 2 * (vel * vel) * sum d (fun i => fl_dir f' i * fl_dir f' i)) by (rewrite DI; ring).
    assert (V0 := UV 0%nat). assert (V1 := UV 1%nat). assert (V2 := UV 2%nat).
    dims D; cbn in *; rewrite V0 by lia; try rewrite V1 by lia; try rewrite V2 by lia; ring. }
  assert (TT : p_T (prim_of d (g_cp g) (g_cv g) visc U) = g_T g).
  { change (p_T (prim_of d (g_cp g) (g_cv g) visc U)) with ((U (d + 1)%nat / U 0%nat - p_k (prim_of d (g_cp g) (g_cv g) visc U)) / g_cv g).
    rewrite KK, U0, UE. unfold fl_rho_e, fl_q0. fold g. fold vel. field. lra. }
  assert (AE : p_a (prim_of d (g_cp g) (g_cv g) visc U) = g_a g).
  { change (p_a (prim_of d (g_cp g) (g_cv g) visc U)) with (sqrt (g_cp g / g_cv g * (g_cp g - g_cv g) * p_T (prim_of d (g_cp g) (g_cv g) visc U))). rewrite TT. reflexivity. }
  assert (AP : 0 < g_a g).
  { unfold g_a, g_gamma, g_R. apply sqrt_lt_R0. apply Rmult_lt_0_compat; [apply Rmult_lt_0_compat; [apply Rdiv_lt_0_compat|]|]; lra. }
  split; [apply prim_init_good; auto; [rewrite U0; auto|rewrite TT; auto]|].
  split; [exact U0|]. split; [exact TT|]. split.
  { change (p_p (prim_of d (g_cp g) (g_cv g) visc U)) with ((g_cp g - g_cv g) * p_T (prim_of d (g_cp g) (g_cv g) visc U) * U 0%nat). rewrite TT, U0. unfold g_p, g_R. ring. }
  split; [exact AE|]. split.
  { change (p_mach (prim_of d (g_cp g) (g_cv g) visc U)) with (sqrt (2 * p_k (prim_of d (g_cp g) (g_cv g) visc U)) / p_a (prim_of d (g_cp g) (g_cv g) visc U)).
    rewrite KK, AE. replace (2 * (1 / 2 * (vel * vel))) with (Rsqr vel) by (unfold Rsqr; field). rewrite sqrt_Rsqr_abs. unfold vel, fl_vel. fold g. fold M. rewrite Rabs_mult, (Rabs_right (g_a g)) by lra. field. lra. }
  exists n. split; auto. intros i Hi. rewrite EN. replace (n * fl_dir f' i / n) with (fl_dir f' i) by (field; lra).
  change (M * g_a g) with vel. rewrite <- (UV i Hi). dims D; destruct i as [|[|[|]]]; try lia; reflexivity.
Qed.
(** With a flow vector out of the plane the free stream of a plane analysis is too hot. *)
Theorem free_stream_state_refuted : exists f f' U s, 0 < g_cv (fl_gas f) < g_cp (fl_gas f) /\
  flight_init f = Ok f' /\ infinity_vars 2 f' = Ok U /\ prim_init 2 (g_cp (fl_gas f)) (g_cv (fl_gas f)) false U = Ok s /\ g_T (fl_gas f) < p_T s.
Proof.
  set (g := mkGas 1 1 2 1). set (f := mkFlight g 1 (0, 0, 1)).
  assert (N : norm3 (0, 0, 1) = 1) by (unfold norm3; replace (0 * 0 + 0 * 0 + 1 * 1) with 1 by ring; apply sqrt_1).
  assert (E : flight_init f = Ok f).
  { unfold flight_init, gas_init, assert_, f, g. cbn [fl_gas g_rho g_T g_cp g_cv fl_mach fl_vec].
    destruct (rltb 0 1) eqn:A; [|apply rltb_false in A; lra]. destruct (rltb 0 2) eqn:B; [|apply rltb_false in B; lra]. cbn [bind]. cbv zeta. rewrite N.
    destruct (reqb 1 0) eqn:C; [apply reqb_true in C; lra|]. f_equal. f_equal. f_equal; [f_equal|]; field. }
  set (U := get_ok (fun _ => 0) (infinity_vars 2 f)).
  exists f, f, U, (prim_of 2 2 1 false U).
  assert (S2 : sqrt 2 * sqrt 2 = 2) by (apply sqrt_sqrt; lra).
  assert (A2 : fl_rho_e f = 2).
  { unfold fl_rho_e, fl_q0, fl_vel, g_a, g_gamma, g_R, f, g. cbn [fl_gas g_rho g_T g_cp g_cv fl_mach].
    replace (2 / 1 * (2 - 1) * 1) with 2 by field. replace (1 / 2 * 1 * (1 * sqrt 2 * (1 * sqrt 2))) with (1 / 2 * (sqrt 2 * sqrt 2)) by ring. rewrite S2. field. }
  assert (P : p_T (prim_of 2 2 1 false U) = 2).
  { change (((fl_rho_e f / 1) - (1/2) * (fl_rho_u f 0 / 1 * (fl_rho_u f 0 / 1) + fl_rho_u f 1 / 1 * (fl_rho_u f 1 / 1) + 0 * 0)) / 1 = 2).
    rewrite A2. unfold fl_rho_u, fl_dir, f. cbn [fl_vec]. field. }
  split; [cbn; lra|]. split; [exact E|]. split; [reflexivity|]. split; [|rewrite P; cbn; lra].
  apply prim_init_good; [lra|cbn; lra|rewrite P; lra].
Qed.
(** The sensitivities of the free stream to density and Mach number are derivatives. *)
Definition with_rho (f : flight) (r : R) : flight := mkFlight (mkGas r (g_T (fl_gas f)) (g_cp (fl_gas f)) (g_cv (fl_gas f))) (fl_mach f) (fl_vec f).
Definition with_mach (f : flight) (m : R) : flight := mkFlight (fl_gas f) m (fl_vec f).
Theorem free_stream_sens_rho f : g_rho (fl_gas f) <> 0 ->
  derivable_pt_lim (fun r => g_rho (fl_gas (with_rho f r))) (g_rho (fl_gas f)) fl_rho_sens_rho /\
  (forall i, derivable_pt_lim (fun r => fl_rho_u (with_rho f r) i) (g_rho (fl_gas f)) (fl_rho_u_sens_rho f i)) /\
  derivable_pt_lim (fun r => fl_rho_e (with_rho f r)) (g_rho (fl_gas f)) (fl_rho_e_sens_rho f).
Proof.
  intros R. destruct f as [[rho T cp cv] M n]. cbn [fl_gas g_rho] in *.
  assert (I : derivable_pt_lim (fun r => r) rho 1) by apply derivable_pt_lim_id.
  set (a := sqrt (cp / cv * (cp - cv) * T)).
  split; [exact I|]. split.
  - intros i. change (derivable_pt_lim (fun r => r * (M * a) * fl_dir (mkFlight (mkGas rho T cp cv) M n) i) rho (rho * (M * a) * fl_dir (mkFlight (mkGas rho T cp cv) M n) i / rho)).
    eapply deriv_eq; [|dd]. field. auto.
  - change (derivable_pt_lim (fun r => r * cv * T + 1/2 * r * ((M * a) * (M * a))) rho ((rho * cv * T + 1/2 * rho * ((M * a) * (M * a))) / rho)).
    eapply deriv_eq; [|dd]. field. auto.
Qed.
Theorem free_stream_sens_mach_partial f : fl_mach f <> 0 ->
  (forall i, exists v, fl_rho_u_sens_mach f i = Ok v /\ derivable_pt_lim (fun m => fl_rho_u (with_mach f m) i) (fl_mach f) v) /\
  (exists v, fl_rho_e_sens_mach f = Ok v /\ derivable_pt_lim (fun m => fl_rho_e (with_mach f m)) (fl_mach f) v).
Proof.
  intros R. assert (I : derivable_pt_lim (fun r => r) (fl_mach f) 1) by apply derivable_pt_lim_id.
  unfold fl_rho_u_sens_mach, fl_rho_e_sens_mach. destruct (reqb (fl_mach f) 0) eqn:E; [apply reqb_true in E; lra|].
  split; [intros i|]; (eexists; split; [reflexivity|]).
  - change (derivable_pt_lim (fun m => g_rho (fl_gas f) * (m * g_a (fl_gas f)) * fl_dir f i) (fl_mach f) (fl_rho_u f i / fl_mach f)).
    eapply deriv_eq; [|dd]. unfold fl_rho_u, fl_vel. field. auto.
  - change (derivable_pt_lim (fun m => g_rho (fl_gas f) * g_cv (fl_gas f) * g_T (fl_gas f) + 1/2 * g_rho (fl_gas f) * ((m * g_a (fl_gas f)) * (m * g_a (fl_gas f)))) (fl_mach f) (2 * fl_q0 f / fl_mach f)).
    eapply deriv_eq; [|dd]. unfold fl_q0, fl_vel. field. auto.
Qed.
(** At Mach zero the derivative of the momentum exists and is not zero, the function returns NaN. *)
Theorem free_stream_sens_mach_refuted : exists f v, fl_rho_u_sens_mach f 0 = Fault DivByZero /\
  derivable_pt_lim (fun m => fl_rho_u (with_mach f m) 0) (fl_mach f) v /\ v <> 0.
Proof.
  exists (mkFlight (mkGas 1 1 2 1) 0 (1, 0, 0)), (sqrt (2 / 1 * (2 - 1) * 1)). split; [|split].
  - unfold fl_rho_u_sens_mach. cbn [fl_mach]. destruct (reqb 0 0) eqn:E; auto. apply reqb_false in E. lra.
  - set (a := sqrt (2 / 1 * (2 - 1) * 1)). change (derivable_pt_lim (fun m => 1 * (m * a) * 1) 0 a).
    assert (I : derivable_pt_lim (fun r => r) 0 1) by apply derivable_pt_lim_id. eapply deriv_eq; [|dd]. ring.
  - apply Rgt_not_eq, sqrt_lt_R0. lra.
Qed.
Example free_stream_example : exists f f', flight_init f = Ok f' /\ flow_in_dim 2 f /\ 0 < g_cv (fl_gas f) < g_cp (fl_gas f) /\ fl_mach f = 1/2 /\ fl_dir f' 1 = 4/5.
Proof.
  exists (mkFlight (mkGas 1 300 1003 716) (1/2) (3, 4, 0)).
  assert (N : norm3 (3, 4, 0) = 5) by (unfold norm3; replace (3 * 3 + 4 * 4 + 0 * 0) with (5 * 5) by ring; apply sqrt_square; lra).
  eexists. split.
  - unfold flight_init, gas_init, assert_. cbn [fl_gas g_rho g_T g_cp g_cv fl_mach fl_vec].
    destruct (rltb 0 1) eqn:A; [|apply rltb_false in A; lra]. destruct (rltb 0 300) eqn:B; [|apply rltb_false in B; lra].
    destruct (rltb 0 1003) eqn:A1; [|apply rltb_false in A1; lra]. destruct (rltb 0 716) eqn:B1; [|apply rltb_false in B1; lra].
    cbn [bind]. cbv zeta. rewrite N. destruct (reqb 5 0) eqn:C; [apply reqb_true in C; lra|]. reflexivity.
  - repeat split; cbn; try lra. intros i Hi. assert (i = 2%nat) by lia. subst. reflexivity.
Qed.

(** ** C83: perturbations *)
(** Each part of the perturbed state is the derivative of the corresponding part of the state along every
    family of states. *)
Theorem perturbation_is_derivative_partial d cp cv visc U s0 V s : valid_dim d -> 0 < cv < cp -> follows U s0 V -> prim_init d cp cv visc (U s0) = Ok s ->
  let q := pert_of d cp cv visc s V in
  let at_ (f : prim -> R) t := f (prim_of d cp cv visc (U t)) in
  derivable_pt_lim (at_ p_rho) s0 (d_rho q) /\ derivable_pt_lim (at_ p_u1) s0 (d_u1 q) /\
  derivable_pt_lim (at_ p_u2) s0 (d_u2 q) /\ derivable_pt_lim (at_ p_u3) s0 (d_u3 q) /\
  derivable_pt_lim (at_ p_k) s0 (d_k q) /\ derivable_pt_lim (at_ p_e) s0 (d_e q) /\
  derivable_pt_lim (at_ p_T) s0 (d_T q) /\ derivable_pt_lim (at_ p_p) s0 (d_p q) /\
  derivable_pt_lim (at_ p_a) s0 (d_a q) /\ derivable_pt_lim (at_ p_entropy) s0 (d_entropy q) /\
  derivable_pt_lim (at_ p_mu) s0 (d_mu q) /\ derivable_pt_lim (at_ p_lambda) s0 (d_lambda q) /\ derivable_pt_lim (at_ p_kth) s0 (d_kth q) /\
  (0 < p_k s -> exists v, d_mach q = Ok v /\ derivable_pt_lim (at_ p_mach) s0 v).
Proof.
  intros D G F H. destruct (prim_init_ok _ _ _ _ _ _ G H) as (-> & R & T & P). cbn in R. cbv zeta.
  assert (CV : cv <> 0) by lra. assert (R' : U s0 0%nat <> 0) by lra.
  pose proof (path_rho d cp cv visc U s0 V F). pose proof (path_u1 d cp cv visc U s0 V F R'). pose proof (path_u2 d cp cv visc U s0 V D F R'). pose proof (path_u3 d cp cv visc U s0 V D F R').
  pose proof (path_k d cp cv visc U s0 V D F R'). pose proof (path_e d cp cv visc U s0 V F R'). pose proof (path_T d cp cv visc U s0 V D F R' CV). pose proof (path_p d cp cv visc U s0 V D F R' CV).
  pose proof (path_a d cp cv visc U s0 V D F R' CV G T). pose proof (path_entropy d cp cv visc U s0 V D F R' CV G T R). pose proof (path_mu d cp cv visc U s0 V D F R' CV T).
  pose proof (path_lambda d cp cv visc U s0 V D F R' CV T). pose proof (path_kth d cp cv visc U s0 V D F R' CV T).
  repeat match goal with |- _ /\ _ => split end; auto.
  intros K. destruct (d_mach (pert_of d cp cv visc (prim_of d cp cv visc (U s0)) V)) as [v|x] eqn:E.
  - exists v. split; auto. apply (path_mach d cp cv visc U s0 V D F R' CV G T v K E).
  - unfold pert_of in E. cbn [d_mach] in E. destruct (reqb _ 0) eqn:Z; [|discriminate]. apply reqb_true in Z. lra.
Qed.
(** In a fluid at rest the perturbed Mach number is not a number. *)
Theorem perturbation_is_derivative_refuted : exists d cp cv U V s, valid_dim d /\ 0 < cv < cp /\ prim_init d cp cv false U = Ok s /\ d_mach (pert_of d cp cv false s V) = Fault DivByZero.
Proof.
  set (U := fun i : nat => match i with 1%nat => 0 | _ => 1 end).
  exists 1%nat, 2, 1, U, (fun _ => 0), (prim_of 1 2 1 false U). assert (T : p_T (prim_of 1 2 1 false U) = 1) by (cbn; field).
  repeat split; [left; auto|lra|lra|apply prim_init_good; [lra|cbn; lra|rewrite T; lra]|].
  unfold pert_of. cbn [d_mach]. destruct (reqb _ 0) eqn:Z; auto. apply reqb_false in Z. exfalso. apply Z. cbn. field.
Qed.
(** A concrete state for the examples: density 1, velocity (1,2,...), temperature 1. *)
Definition demo_U (d : nat) : vec := cons_of d 1 (fun i => if Nat.eqb i (d + 1) then 1 else match i with 0%nat => 1 | 1%nat => 1 | 2%nat => 2 | _ => 3 end).
Example demo_state d : valid_dim d -> exists s, prim_init d 2 1 true (demo_U d) = Ok s /\ 0 < p_k s /\ 0 < p_mu s.
Proof.
  intros D. destruct (state_round_trip' d 2 1 true (fun i => if Nat.eqb i (d + 1) then 1 else match i with 0%nat => 1 | 1%nat => 1 | 2%nat => 2 | _ => 3 end) D) as (s & E & Q & _).
  - lra.
  - dims D; cbn; lra.
  - rewrite Nat.eqb_refl. lra.
  - exists s. split; [exact E|]. assert (G : 0 < 1 < 2) by lra. destruct (prim_init_ok _ _ _ _ _ _ G E) as (-> & R & T & P).
    assert (Q1 := Q 1%nat ltac:(lia)). split.
    + change (0 < 1/2 * (p_u1 (prim_of d 2 1 true (demo_U d)) * p_u1 (prim_of d 2 1 true (demo_U d)) + p_u2 (prim_of d 2 1 true (demo_U d)) * p_u2 (prim_of d 2 1 true (demo_U d)) + p_u3 (prim_of d 2 1 true (demo_U d)) * p_u3 (prim_of d 2 1 true (demo_U d)))).
      assert (P1 : p_u1 (prim_of d 2 1 true (demo_U d)) = 1) by (dims D; exact Q1).
      rewrite P1. pose proof (Rle_0_sqr (p_u2 (prim_of d 2 1 true (demo_U d)))). pose proof (Rle_0_sqr (p_u3 (prim_of d 2 1 true (demo_U d)))). unfold Rsqr in *. lra.
    + change (0 < suth (p_T (prim_of d 2 1 true (demo_U d)))).
      unfold suth. apply Rdiv_lt_0_compat; [apply Rmult_lt_0_compat; [lra|apply exp_pos]|]. unfold demo_U in *. lra.
Qed.
(** Every state is on a family moving in every direction. *)
Example demo_family U V : follows (fun t i => U i + t * V i) 0 V /\ forall i, (fun t i => U i + t * V i) 0 i = U i.
Proof.
  split; [|intros; ring]. intros i. assert (I : derivable_pt_lim (fun r => r) 0 1) by apply derivable_pt_lim_id. eapply deriv_eq; [|dd]. ring.
Qed.

Section Jac.
Variables (d : nat) (cp cv : R) (visc : bool).
Hypothesis D : valid_dim d.
Hypothesis G : 0 < cv < cp.
Let P := prim_of d cp cv visc.

(** ** C84: change of variables *)
Theorem variable_jacobians_inverse U s : prim_init d cp cv visc U = Ok s ->
  exists A B, dcons_dprim d cv s = Ok A /\ dprim_dcons d cv s = Ok B /\
    identity (2 + d) (mmul (2 + d) A B) /\ identity (2 + d) (mmul (2 + d) B A).
Proof.
  intros H. destruct (prim_init_ok _ _ _ _ _ _ G H) as (-> & R & T & PP).
  exists (dcp_fn d cv (P U)), (dpc_fn d cv (P U)). split; [apply dcp_safe; auto|]. split; [apply dpc_safe; auto|].
  apply (dcp_dpc d cp); auto; [apply Rgt_not_eq; exact R|lra|apply state_of].
Qed.
Theorem variable_jacobians_derivative U s0 V s : follows U s0 V -> prim_init d cp cv visc (U s0) = Ok s ->
  exists B, dprim_dcons d cv s = Ok B /\ forall i, (i < 2 + d)%nat -> derivable_pt_lim (fun t => prim_vec d (P (U t)) i) s0 (mvec (2 + d) B V i).
Proof.
  intros F H. destruct (prim_init_ok _ _ _ _ _ _ G H) as (-> & R & T & PP). exists (dpc_fn d cv (P (U s0))). split; [apply dpc_safe; auto|].
  cbn in R. assert (CV : cv <> 0) by lra. assert (R' : U s0 0%nat <> 0) by lra.
  apply (dprim_ok d cp cv (fun t => P (U t)) s0 V (pert_of d cp cv visc (P (U s0)) V)); auto; [apply state_of|apply moves_of; auto].
Qed.
Theorem variable_jacobians_derivative' U s q s0 V : prim_init d cp cv visc U = Ok s -> follows q s0 V -> (forall i, (i < 2 + d)%nat -> q s0 i = prim_vec d s i) ->
  exists A, dcons_dprim d cv s = Ok A /\ forall i, (i < 2 + d)%nat -> derivable_pt_lim (fun t => cons_of d cv (q t) i) s0 (mvec (2 + d) A V i).
Proof.
  intros H F E. destruct (prim_init_ok _ _ _ _ _ _ G H) as (-> & R & T & PP). exists (dcp_fn d cv (P U)). split; [apply dcp_safe; auto|].
  apply (dcons_ok d cp cv (P U)); auto; [lra|apply state_of].
Qed.

(** ** C85: advection flux and its Jacobian *)
Theorem flux_jacobian_is_derivative U s0 V s c : (c < d)%nat -> follows U s0 V -> prim_init d cp cv visc (U s0) = Ok s ->
  exists A, adv_jac d c (cp - cv) cv (cp / cv) s = Ok A /\
  exists Fl, (forall t, adv_flux d c (P (U t)) = Ok (Fl t)) /\ forall i, (i < 2 + d)%nat -> derivable_pt_lim (fun t => Fl t i) s0 (mvec (2 + d) A V i).
Proof.
  intros C F H. destruct (prim_init_ok _ _ _ _ _ _ G H) as (-> & R & T & PP). cbn in R. assert (CV : cv <> 0) by lra. assert (R' : U s0 0%nat <> 0) by lra.
  exists (adv_jac_fn d c (cp - cv) cv (cp / cv) (P (U s0))). split; [apply adv_jac_safe; auto|].
  exists (fun t => flux_fn d c (P (U t))). split; [intros; apply adv_flux_safe; auto|].
  apply (adv_jac_ok d c cp cv (fun t => P (U t)) s0 V (pert_of d cp cv visc (P (U s0)) V)); auto; [apply state_of|apply moves_of; auto].
Qed.
(** The flux itself: convection with the velocity plus pressure. *)
Theorem flux_is_euler U s c : (c < d)%nat -> prim_init d cp cv visc U = Ok s ->
  exists f, adv_flux d c s = Ok f /\ f 0%nat = U (1 + c)%nat /\ f (d + 1)%nat = (U (d + 1)%nat + p_p s) * uvec d s c /\
    forall i, (i < d)%nat -> f (1 + i)%nat = U (1 + i)%nat * uvec d s c + if Nat.eqb i c then p_p s else 0.
Proof.
  intros C H. destruct (prim_init_ok _ _ _ _ _ _ G H) as (-> & R & T & PP). cbn in R. exists (flux_fn d c (P U)). split; [apply adv_flux_safe; auto|].
  clear H T PP. unfold P.
  split; [|split; [|intros i Hi]]; dims D; destruct c as [|[|[|]]]; try lia; try (destruct i as [|[|[|]]]; try lia); cbn; try field; try lra.
Qed.

(** ** C86: sensitivity of the Jacobian *)
Theorem jacobian_sensitivity_primitive U s0 V s c : (c < d)%nat -> follows U s0 V -> prim_init d cp cv visc (U s0) = Ok s ->
  exists S dq, (forall v, (v < 2 + d)%nat -> adv_jac_sens d c (nth v (active d) RHO) (cp - cv) cv s = Ok (S v)) /\
    (forall v, (v < 2 + d)%nat -> derivable_pt_lim (fun t => prim_vec d (P (U t)) v) s0 (dq v)) /\
    exists A, (forall t, adv_jac d c (cp - cv) cv (cp / cv) (P (U t)) = Ok (A t)) /\
    forall i j, (i < 2 + d)%nat -> (j < 2 + d)%nat -> derivable_pt_lim (fun t => A t i j) s0 (sum (2 + d) (fun v => S v i j * dq v)).
Proof.
  intros C F H. destruct (prim_init_ok _ _ _ _ _ _ G H) as (-> & R & T & PP). cbn in R. assert (CV : cv <> 0) by lra. assert (R' : U s0 0%nat <> 0) by lra.
  set (q := pert_of d cp cv visc (P (U s0)) V).
  assert (ST := state_of d cp cv visc (U s0)). assert (MV := moves_of d cp cv visc U s0 V D F R' CV).
  exists (fun v => ajs_fn d c (pvar_at d v) (cp - cv) cv (P (U s0))), (fun v => prim_vec d (mkPrim (d_rho q) (d_u1 q) (d_u2 q) (d_u3 q) 0 0 (d_T q) 0 0 0 0 0 0 0) v).
  split; [intros; apply (ajs_safe d c v); auto|]. split.
  - intros v Hv. rewrite (prim_move d cp cv (fun t => P (U t)) s0 V q) by auto. apply (dprim_ok d cp cv (fun t => P (U t)) s0 V q); auto.
  - exists (fun t => adv_jac_fn d c (cp - cv) cv (cp / cv) (P (U t))). split; [intros; apply adv_jac_safe; auto|].
    apply (ajs_ok d c cp cv (fun t => P (U t)) s0 V q); auto.
Qed.
Theorem jacobian_sensitivity_conservative U s0 V s c : (c < d)%nat -> follows U s0 V -> prim_init d cp cv visc (U s0) = Ok s ->
  exists S, adv_jac_sens_cons d c (cp - cv) cv s = Ok S /\
    exists A, (forall t, adv_jac d c (cp - cv) cv (cp / cv) (P (U t)) = Ok (A t)) /\
    forall i j, (i < 2 + d)%nat -> (j < 2 + d)%nat -> derivable_pt_lim (fun t => A t i j) s0 (sum (2 + d) (fun v => S v i j * V v)).
Proof.
  intros C F H. destruct (prim_init_ok _ _ _ _ _ _ G H) as (-> & R & T & PP). cbn in R. assert (CV : cv <> 0) by lra. assert (R' : U s0 0%nat <> 0) by lra.
  set (q := pert_of d cp cv visc (P (U s0)) V).
  assert (ST := state_of d cp cv visc (U s0)). assert (MV := moves_of d cp cv visc U s0 V D F R' CV).
  destruct (ajsc_run d c (cp - cv) cv (P (U s0)) D C) as (r & E & _). exists r. split; auto.
  exists (fun t => adv_jac_fn d c (cp - cv) cv (cp / cv) (P (U t))). split; [intros; apply adv_jac_safe; auto|].
  apply (ajsc_ok d c cp cv (fun t => P (U t)) s0 V q r); auto.
Qed.

(** ** C87: eigenvectors *)
(** For every unit normal: the columns of the second matrix are left eigenvectors of the flux Jacobian in
    the direction of the normal, the third matrix is the transposed inverse, and the eigenvalues are the
    normal velocity (d times) and the normal velocity minus and plus the speed of sound. *)
Theorem eigenvectors U s nv : prim_init d cp cv visc U = Ok s -> unit_normal d nv ->
  exists lam L LI A, eig d cv (cp / cv) s nv = Ok (lam, L, LI) /\
    (forall c, (c < d)%nat -> adv_jac d c (cp - cv) cv (cp / cv) s = Ok (A c)) /\
    (forall i j, (i < 2 + d)%nat -> (j < 2 + d)%nat -> sum (2 + d) (fun k => L k i * along d A nv k j) = lam i * L j i) /\
    identity (2 + d) (fun i j => sum (2 + d) (fun k => L k i * LI k j)) /\
    (let un := sum d (fun c => uvec d s c * nv c) in
     (forall i, (i < d)%nat -> lam i = un) /\ lam d = un - p_a s /\ lam (d + 1)%nat = un + p_a s).
Proof.
  intros H UN. destruct (prim_init_ok _ _ _ _ _ _ G H) as (-> & R & T & PP). cbn in R.
  assert (CV : cv <> 0) by lra. assert (CP : cp <> 0) by lra. assert (CC : cp <> cv) by lra.
  assert (Q : 0 < cp / cv * (cp - cv)) by (apply Rmult_lt_0_compat; [apply Rdiv_lt_0_compat|]; lra).
  assert (QT := Rmult_lt_0_compat _ _ Q T).
  assert (A2 : p_a (P U) * p_a (P U) = cp / cv * (cp - cv) * p_T (P U)) by (apply sqrt_sqrt; apply Rlt_le; exact QT).
  assert (AA : p_a (P U) <> 0) by (apply Rgt_not_eq, sqrt_lt_R0; exact QT).
  assert (ST := state_of d cp cv visc U).
  set (e := eig_fn d cv (cp / cv) (P U) nv).
  exists (fst (fst e)), (snd (fst e)), (snd e), (fun c => adv_jac_fn d c (cp - cv) cv (cp / cv) (P U)).
  split. { fold P. rewrite (eig_safe d cp cv (P U) nv); auto. fold e. destruct e as [[? ?] ?]. reflexivity. }
  split; [intros; apply adv_jac_safe; auto|].
  split; [apply eig_left; auto|]. split; [unfold identity; apply (eig_inv d cp cv (P U) nv); auto|].
  cbv zeta. unfold e. pose proof (eig_cases d cp cv (P U) nv D ST UN) as C. clear - C D UN. cbv zeta in C. 
  assert (S2 : (d <= 1)%nat -> p_u2 (P U) = 0) by apply (state_of d cp cv visc U).
  assert (S3 : (d <= 2)%nat -> p_u3 (P U) = 0) by apply (state_of d cp cv visc U).
  fold P. generalize dependent (P U). intros s S2 S3.
  split; [intros i Hi|split]; dims D; cbn [Nat.ltb Nat.leb] in C; destruct C as [[QQ NX]|[[L [QQ NX]]|[L [QQ NX]]]]; try lia; try (destruct i as [|[|[|]]]; try lia); unfold eig_fn, eig;
    cbn [Nat.ltb Nat.leb]; rewrite QQ; ev5; lazy [uvec Nat.ltb Nat.leb]; ring.
Qed.

(** ** C88: entropy variables *)
Theorem entropy_jacobians U s : prim_init d cp cv visc U = Ok s ->
  exists A B, dU_dV d cv (cp / cv) s = Ok A /\ dV_dU d cv (cp / cv) s = Ok B /\ symmetric (2 + d) A /\ symmetric (2 + d) B /\
    identity (2 + d) (mmul (2 + d) A B) /\ identity (2 + d) (mmul (2 + d) B A).
Proof.
  intros H. destruct (prim_init_ok _ _ _ _ _ _ G H) as (-> & R & T & PP).
  exists (duv_fn d cv (cp / cv) (P U)), (dvu_fn d cv (cp / cv) (P U)). split; [apply duv_safe; auto|]. split; [apply dvu_safe; auto|].
  destruct (duv_sym d cv (cp / cv) (P U) D) as [S1 S2]. split; auto. split; auto.
  apply (duv_dvu d cp); auto; try lra. 1: apply Rgt_not_eq; exact R. 1: apply Rgt_not_eq; exact T. apply state_of.
Qed.
Theorem entropy_jacobian_is_derivative U s0 V s : follows U s0 V -> prim_init d cp cv visc (U s0) = Ok s ->
  exists B, dV_dU d cv (cp / cv) s = Ok B /\ forall i, (i < 2 + d)%nat -> derivable_pt_lim (fun t => entropy_vars d (cp / cv) cv (P (U t)) i) s0 (mvec (2 + d) B V i).
Proof.
  intros F H. destruct (prim_init_ok _ _ _ _ _ _ G H) as (-> & R & T & PP). cbn in R. assert (CV : cv <> 0) by lra. assert (R' : U s0 0%nat <> 0) by lra.
  set (q := pert_of d cp cv visc (P (U s0)) V).
  assert (ST := state_of d cp cv visc (U s0)). assert (MV := moves_of d cp cv visc U s0 V D F R' CV).
  exists (dvu_fn d cv (cp / cv) (P (U s0))). split; [apply dvu_safe; auto|].
  apply (dvu_ok d cp cv (fun t => P (U t)) s0 V q); auto; try lra.
  - apply Rgt_not_eq; exact T.
  - pose proof (path_entropy d cp cv visc U s0 V D F R' CV G T R) as EN. eapply deriv_eq; [|exact EN]. cbv beta.
    change (d_entropy (pert_of d cp cv visc (prim_of d cp cv visc (U s0)) V)) with
      ((d_p q / Rpower (p_rho (P (U s0))) (cp / cv) - cp / cv * p_p (P (U s0)) / Rpower (p_rho (P (U s0))) (cp / cv + 1) * d_rho q) / (p_p (P (U s0)) / Rpower (p_rho (P (U s0))) (cp / cv))).
    rewrite Rpower_plus, Rpower_1 by exact R.
    assert (N : 0 < Rpower (p_rho (P (U s0))) (cp / cv)) by apply exp_pos. revert N. generalize (Rpower (p_rho (P (U s0))) (cp / cv)). intros w N.
    assert (R1 : p_rho (P (U s0)) <> 0) by exact R'. assert (P1 : p_p (P (U s0)) <> 0) by (apply Rgt_not_eq; exact PP).
    revert R1 P1. generalize (p_rho (P (U s0))) (p_p (P (U s0))) (d_p q) (d_rho q). intros. field. repeat split; auto; lra.
Qed.

(** ** C89: diffusion *)
Theorem diffusion_jacobian_chain U s f c : (f < d)%nat -> (c < d)%nat -> prim_init d cp cv visc U = Ok s ->
  exists K Kp B, diff_jac d f c cv s = Ok K /\ diff_jac_prim d f c (uvec d s) false s = Ok Kp /\ dprim_dcons d cv s = Ok B /\
    forall i j, (i < 2 + d)%nat -> (j < 2 + d)%nat -> K i j = mmul (2 + d) Kp B i j.
Proof.
  intros F C H. destruct (prim_init_ok _ _ _ _ _ _ G H) as (-> & R & T & PP).
  exists (dj_fn d f c cv (P U)), (djp_fn d f c (uvec d (P U)) false (P U)), (dpc_fn d cv (P U)).
  split; [apply dj_safe; auto|]. split; [apply djp_safe; auto|]. split; [apply dpc_safe; auto|].
  apply (dj_chain d f c cp); auto; [apply Rgt_not_eq; exact R|lra|apply state_of].
Qed.
(** The flux computed from the gradients is that of a Newtonian fluid with Fourier heat conduction, and is
    the sum of the diffusion matrices times the gradients. *)
Theorem diffusion_flux U s f dU : (f < d)%nat -> prim_init d cp cv visc U = Ok s ->
  exists B K, dprim_dcons d cv s = Ok B /\ (forall c, (c < d)%nat -> diff_jac d f c cv s = Ok (K c)) /\
    (let tau := fst (diff_tensors d s B dU) in
     let gT := snd (diff_tensors d s B dU) in
     let grad := fun a => mvec (2 + d) B (dU a) in
     (forall i j, (i < d)%nat -> (j < d)%nat -> tau i j = newton_stress d (p_mu s) (p_lambda s) (fun a b => grad a (b + 1)%nat) i j) /\
     (forall i, (i < d)%nat -> gT i = grad i (d + 1)%nat) /\
     diff_flux d f s tau gT 0%nat = 0 /\
     (forall j, (j < d)%nat -> diff_flux d f s tau gT (j + 1)%nat = tau f j) /\
     diff_flux d f s tau gT (d + 1)%nat = sum d (fun j => uvec d s j * tau f j) + p_kth s * gT f /\
     forall i, (i < 2 + d)%nat -> diff_flux d f s tau gT i = sum d (fun c => mvec (2 + d) (K c) (dU c) i)).
Proof.
  intros F H. destruct (prim_init_ok _ _ _ _ _ _ G H) as (-> & R & T & PP).
  exists (dpc_fn d cv (P U)), (fun c => dj_fn d f c cv (P U)). split; [apply dpc_safe; auto|]. split; [intros; apply dj_safe; auto|]. cbv zeta.
  split; [intros; apply tensors_ok; auto|]. split; [intros; apply tensors_T; auto|].
  set (tau := fst (diff_tensors d (P U) (dpc_fn d cv (P U)) dU)). set (gT := snd (diff_tensors d (P U) (dpc_fn d cv (P U)) dU)).
  split; [dims D; reflexivity|]. split; [intros j Hj; clearbody tau gT; dims D; destruct j as [|[|[|]]]; try lia; reflexivity|].
  split; [clearbody tau gT; dims D; reflexivity|].
  apply (diff_flux_ok d f cp); auto; [apply Rgt_not_eq; exact R|lra|apply state_of].
Qed.

(** ** C90: pressure and moving walls *)
Theorem pressure_derivative U s0 V s : follows U s0 V -> prim_init d cp cv visc (U s0) = Ok s ->
  exists g, dpdX d (cp - cv) cv s = Ok g /\ derivable_pt_lim (fun t => p_p (P (U t))) s0 (sum (2 + d) (fun i => g i * V i)).
Proof.
  intros F H. destruct (prim_init_ok _ _ _ _ _ _ G H) as (-> & R & T & PP). cbn in R. assert (CV : cv <> 0) by lra. assert (R' : U s0 0%nat <> 0) by lra.
  set (q := pert_of d cp cv visc (P (U s0)) V).
  assert (ST := state_of d cp cv visc (U s0)). assert (MV := moves_of d cp cv visc U s0 V D F R' CV).
  exists (dpx_fn d (cp - cv) cv (P (U s0))). split; [apply dpx_safe; auto|]. apply (dpx_ok d cp cv (fun t => P (U t)) s0 V q); auto.
Qed.
Theorem moving_wall_jacobian U s0 V s w nv dn : follows U s0 V -> prim_init d cp cv visc (U s0) = Ok s ->
  exists J, wall_jac d (cp - cv) cv s (w - sum d (fun i => uvec d s i * dn i)) nv dn = Ok J /\
    forall i, (i < 2 + d)%nat -> derivable_pt_lim (fun t => wall_flux d w nv dn (P (U t)) i) s0 (mvec (2 + d) J V i).
Proof.
  intros F H. destruct (prim_init_ok _ _ _ _ _ _ G H) as (-> & R & T & PP). cbn in R. assert (CV : cv <> 0) by lra. assert (R' : U s0 0%nat <> 0) by lra.
  set (q := pert_of d cp cv visc (P (U s0)) V).
  assert (ST := state_of d cp cv visc (U s0)). assert (MV := moves_of d cp cv visc U s0 V D F R' CV).
  eexists. split; [apply wall_safe; auto|]. intros i Hi.
  assert (E : sum d (fun i => uvec d (P (U s0)) i * dn i) = sum d (fun i => match i with 0%nat => p_u1 (P (U s0)) | 1%nat => p_u2 (P (U s0)) | _ => p_u3 (P (U s0)) end * dn i)) by (dims D; reflexivity).
  fold P. rewrite E. apply (wall_ok d cp cv (fun t => P (U t)) s0 V q w nv dn); auto.
Qed.
End Jac.

(** ** Arguments outside the analysis *)
(** The matrix of a direction the analysis does not have is refused ... *)
Theorem flux_jacobian_direction_refused d c R0 cv gm s : valid_dim d -> (d <= c)%nat -> ~ (d = 2%nat /\ c = 2%nat) ->
  exists f, adv_jac d c R0 cv gm s = Fault f.
Proof.
  intros D H N. dims D; destruct c as [|[|[|c]]]; try lia; eexists; reflexivity.
Qed.
(** ... except the third direction in two dimensions, for which a matrix is returned that mixes up the rows of the
    third momentum and of the energy. *)
Theorem flux_jacobian_third_direction_in_plane : exists A, forall R0 cv gm s, adv_jac 2 2 R0 cv gm s = Ok (A R0 cv gm s).
Proof. exists (fun R0 cv gm s => get_ok mx0 (adv_jac 2 2 R0 cv gm s)). reflexivity. Qed.
(** Without heat conduction: only the temperature entry of the energy row changes, and it is the conductivity. *)
Theorem diffusion_jacobian_no_heat d f c uv s : valid_dim d -> (f < d)%nat -> (c < d)%nat ->
  exists K K0, diff_jac_prim d f c uv false s = Ok K /\ diff_jac_prim d f c uv true s = Ok K0 /\
    K (d + 1)%nat (d + 1)%nat = (if Nat.eqb f c then p_kth s else 0) /\ K0 (d + 1)%nat (d + 1)%nat = 0 /\
    forall i j, (i < 2 + d)%nat -> (j < 2 + d)%nat -> ~ (i = d + 1 /\ j = d + 1)%nat -> K0 i j = K i j.
Proof.
  intros D F C. exists (djp_fn d f c uv false s), (djp_fn d f c uv true s).
  split; [apply djp_safe; auto|]. split; [apply djp_safe; auto|].
  dims D; destruct f as [|[|[|]]]; try lia; destruct c as [|[|[|]]]; try lia; (split; [reflexivity|]); (split; [reflexivity|]);
    intros i j Hi Hj Hn; cbn [Nat.add] in *; destruct i as [|[|[|[|[|]]]]]; try (exfalso; lia); destruct j as [|[|[|[|[|]]]]]; try (exfalso; lia); try reflexivity; exfalso; apply Hn; split; reflexivity.
Qed.
(** The pressure coefficient is the excess pressure over the dynamic pressure. *)
Theorem pressure_coefficient s p0 q0 : 0 < q0 -> c_pressure s p0 q0 * q0 = p_p s - p0 /\ (0 < c_pressure s p0 q0 <-> p0 < p_p s).
Proof.
  intros Q. assert (E : c_pressure s p0 q0 * q0 = p_p s - p0) by (unfold c_pressure; field; lra). split; [auto|].
  set (c := c_pressure s p0 q0) in *. split; intros H.
  - assert (0 < c * q0) by (apply Rmult_lt_0_compat; auto). lra.
  - apply Rnot_le_lt. intros N. assert (c * q0 <= 0 * q0) by (apply Rmult_le_compat_r; lra). lra.
Qed.

(** ** Sensitivity of the diffusion tensors *)
Lemma dpc_diff d cp cv sp s0 V q : valid_dim d -> p_rho (sp s0) <> 0 -> cv <> 0 -> moves d cp cv sp s0 V q ->
  forall i j, (i < 2 + d)%nat -> (j < 2 + d)%nat -> exists v, derivable_pt_lim (fun t => dpc_fn d cv (sp t) i j) s0 v.
Proof.
  intros D RH CV M. destruct M as [M1 M2 M3 M4 M5 M6 M7 M8 D1 D2 D3 D4 D5 D6 D7 D8]. clear D1 D2 D3 D4 D5 D6 D7 D8.
  dims D; cbn [Nat.add] in *; intros i j Hi Hj; revert i Hi; below; revert j Hj; below; ev3; eexists; dd; auto.
Qed.
Lemma dSUM n (f : R -> vec) s0 (v : vec) : (forall k, (k < n)%nat -> derivable_pt_lim (fun t => f t k) s0 (v k)) -> derivable_pt_lim (fun t => sum n (f t)) s0 (sum n v).
Proof. induction n; intros H; cbn; [apply dCO|]. apply (dPL (fun t => sum n (f t)) (fun t => f t n)); auto. Qed.
Lemma mvec_zero d cp cv sp s0 V q (W : R -> vec) Ws : valid_dim d -> p_rho (sp s0) <> 0 -> cv <> 0 -> moves d cp cv sp s0 V q -> follows W s0 Ws -> (forall i, W s0 i = 0) ->
  forall i, (i < 2 + d)%nat -> derivable_pt_lim (fun t => mvec (2 + d) (dpc_fn d cv (sp t)) (W t) i) s0 (mvec (2 + d) (dpc_fn d cv (sp s0)) Ws i).
Proof.
  intros D RH CV M F Z i Hi. unfold mvec. apply (dSUM (2 + d) (fun t k => dpc_fn d cv (sp t) i k * W t k)). intros k Hk.
  destruct (dpc_diff d cp cv sp s0 V q D RH CV M i k Hi Hk) as (v & E). eapply deriv_eq; [|apply (dMU (fun t => dpc_fn d cv (sp t) i k) (fun t => W t k)); [exact E|apply F]].
  rewrite Z. ring.
Qed.
Lemma tensors_sens_ok d s ds dp dU dUs : valid_dim d -> forall i j, (i < d)%nat -> (j < d)%nat ->
  fst (diff_tensors_sens d s ds dp dU dUs) i j = newton_stress d (d_mu ds) (d_lambda ds) (fun a b => mvec (2 + d) dp (dU a) (b + 1)%nat) i j +
    newton_stress d (p_mu s) (p_lambda s) (fun a b => mvec (2 + d) dp (dUs a) (b + 1)%nat) i j.
Proof.
  intros D i j Hi Hj.
  assert (G : forall g g' : nat -> vec, fold_left (fun t a => tensor_sens_step d a (p_mu s) (p_lambda s) (d_mu ds) (d_lambda ds) (g a) (g' a) t) (seq 0 d) mx0 i j =
     d_mu ds * (g i (j + 1)%nat + g j (i + 1)%nat) + (if Nat.eqb i j then d_lambda ds * sum d (fun k => g k (k + 1)%nat) else 0) +
     (p_mu s * (g' i (j + 1)%nat + g' j (i + 1)%nat) + (if Nat.eqb i j then p_lambda s * sum d (fun k => g' k (k + 1)%nat) else 0))).
  { intros g g'. dims D; destruct i as [|[|[|]]]; try lia; destruct j as [|[|[|]]]; try lia;
     lazy [tensor_sens_step fold_left seq mput Nat.eqb andb Nat.add mx0 sum]; ring. }
  exact (G (fun a => mvec (2 + d) dp (dU a)) (fun a => mvec (2 + d) dp (dUs a))).
Qed.
(** With no gradients in the base state the sensitivities of the tensors are their derivatives. *)
Theorem diffusion_tensor_sensitivity_partial d cp cv visc U s0 V s (dU : R -> nat -> vec) dUs : valid_dim d -> 0 < cv < cp ->
  follows U s0 V -> prim_init d cp cv visc (U s0) = Ok s ->
  (forall a, follows (fun t => dU t a) s0 (dUs a)) -> (forall a i, dU s0 a i = 0) ->
  exists B, (forall t, dprim_dcons d cv (prim_of d cp cv visc (U t)) = Ok (B t)) /\
    (forall i j, (i < d)%nat -> (j < d)%nat -> derivable_pt_lim (fun t => fst (diff_tensors d (prim_of d cp cv visc (U t)) (B t) (dU t)) i j) s0
        (fst (diff_tensors_sens d s (pert_of d cp cv visc s V) (B s0) (dU s0) dUs) i j)) /\
    (forall i, (i < d)%nat -> derivable_pt_lim (fun t => snd (diff_tensors d (prim_of d cp cv visc (U t)) (B t) (dU t)) i) s0
        (snd (diff_tensors_sens d s (pert_of d cp cv visc s V) (B s0) (dU s0) dUs) i)).
Proof.
  intros D G F H DU Z. destruct (prim_init_ok _ _ _ _ _ _ G H) as (-> & R & T & PP). cbn in R. assert (CV : cv <> 0) by lra. assert (R' : U s0 0%nat <> 0) by lra.
  assert (MV := moves_of d cp cv visc U s0 V D F R' CV).
  exists (fun t => dpc_fn d cv (prim_of d cp cv visc (U t))). split; [intros; apply dpc_safe; auto|].
  assert (GM : forall a b, (b < 2 + d)%nat -> derivable_pt_lim (fun t => mvec (2 + d) (dpc_fn d cv (prim_of d cp cv visc (U t))) (dU t a) b) s0
      (mvec (2 + d) (dpc_fn d cv (prim_of d cp cv visc (U s0))) (dUs a) b)).
  { intros a. apply (mvec_zero d cp cv (fun t => prim_of d cp cv visc (U t)) s0 V _ (fun t => dU t a) (dUs a) D R' CV MV); auto. }
  assert (GZ : forall a b, mvec (2 + d) (dpc_fn d cv (prim_of d cp cv visc (U s0))) (dU s0 a) b = 0).
  { intros a b. unfold mvec. rewrite (sum_ext' _ _ (fun _ => 0)) by (intros; rewrite Z; ring). generalize (2 + d)%nat. induction n; cbn; lra. }
  split.
  - intros i j Hi Hj. rewrite tensors_sens_ok by auto.
    apply (deriv_ext (fun t => newton_stress d (p_mu (prim_of d cp cv visc (U t))) (p_lambda (prim_of d cp cv visc (U t))) (fun a b => mvec (2 + d) (dpc_fn d cv (prim_of d cp cv visc (U t))) (dU t a) (b + 1)%nat) i j)).
    { exists 1. split; [lra|]. intros t _. symmetry. apply tensors_ok; auto. }
    assert (MM := path_mu d cp cv visc U s0 V D F R' CV T). assert (ML := path_lambda d cp cv visc U s0 V D F R' CV T).
    cbv beta in MM, ML.
    set (g := fun t a b => mvec (2 + d) (dpc_fn d cv (prim_of d cp cv visc (U t))) (dU t a) b) in *.
    set (gs := fun a b => mvec (2 + d) (dpc_fn d cv (prim_of d cp cv visc (U s0))) (dUs a) b).
    assert (GS : derivable_pt_lim (fun t => sum d (fun k => g t k (k + 1)%nat)) s0 (sum d (fun k => gs k (k + 1)%nat))).
    { apply (dSUM d (fun t k => g t k (k + 1)%nat)). intros. apply GM. lia. }
    assert (Gij := GM i (j + 1)%nat ltac:(lia)). assert (Gji := GM j (i + 1)%nat ltac:(lia)).
    assert (GZ' : forall a b, g s0 a b = 0) by exact GZ.
    set (mu := fun t => p_mu (prim_of d cp cv visc (U t))) in *. set (la := fun t => p_lambda (prim_of d cp cv visc (U t))) in *.
    unfold newton_stress.
    change (derivable_pt_lim (fun t => mu t * (g t i (j + 1)%nat + g t j (i + 1)%nat) + (if Nat.eqb i j then la t * sum d (fun k => g t k (k + 1)%nat) else 0)) s0
      (d_mu (pert_of d cp cv visc (prim_of d cp cv visc (U s0)) V) * (g s0 i (j + 1)%nat + g s0 j (i + 1)%nat) + (if Nat.eqb i j then d_lambda (pert_of d cp cv visc (prim_of d cp cv visc (U s0)) V) * sum d (fun k => g s0 k (k + 1)%nat) else 0) +
       (mu s0 * (gs i (j + 1)%nat + gs j (i + 1)%nat) + (if Nat.eqb i j then la s0 * sum d (fun k => gs k (k + 1)%nat) else 0)))).
    eapply deriv_eq; [|apply (dPL (fun t => mu t * (g t i (j + 1)%nat + g t j (i + 1)%nat)) (fun t => if Nat.eqb i j then la t * sum d (fun k => g t k (k + 1)%nat) else 0));
      [apply (dMU mu (fun t => g t i (j + 1)%nat + g t j (i + 1)%nat)); [exact MM|apply (dPL (fun t => g t i (j + 1)%nat) (fun t => g t j (i + 1)%nat)); [exact Gij|exact Gji]]
      |apply (dIF (Nat.eqb i j) (fun t => la t * sum d (fun k => g t k (k + 1)%nat))); apply (dMU la (fun t => sum d (fun k => g t k (k + 1)%nat))); [exact ML|exact GS]]].
    rewrite !GZ'. destruct (Nat.eqb i j); fold gs; [|unfold gs; ring].
    rewrite (sum_ext' _ (fun k => g s0 k (k + 1)%nat) (fun _ => 0)) by (intros; apply GZ').
    unfold gs. ring.
  - intros i Hi. unfold diff_tensors, diff_tensors_sens. cbn [snd]. apply Nat.ltb_lt in Hi. rewrite Hi. apply GM. lia.
Qed.
(** With a temperature gradient in the base state the sensitivity misses the change of the matrix. *)
Theorem diffusion_tensor_sensitivity_refuted : exists d cp cv U s0 V s (dU : R -> nat -> vec) dUs v,
  valid_dim d /\ 0 < cv < cp /\ follows U s0 V /\ prim_init d cp cv false (U s0) = Ok s /\ (forall a, follows (fun t => dU t a) s0 (dUs a)) /\
  derivable_pt_lim (fun t => snd (diff_tensors d (prim_of d cp cv false (U t)) (dpc_fn d cv (prim_of d cp cv false (U t))) (dU t)) 0%nat) s0 v /\
  snd (diff_tensors_sens d s (pert_of d cp cv false s V) (dpc_fn d cv s) (dU s0) dUs) 0%nat <> v.
Proof.
  set (U := fun (t : R) (i : nat) => match i with 0%nat => t | 1%nat => 0 | _ => 1 end).
  exists 1%nat, 2, 1, U, 1, (fun i => match i with 0%nat => 1 | _ => 0 end), (prim_of 1 2 1 false (U 1)), (fun _ _ i => match i with 2%nat => 1 | _ => 0 end), (fun _ _ => 0), (-1).
  assert (I : derivable_pt_lim (fun r => r) 1 1) by apply derivable_pt_lim_id.
  assert (T : p_T (prim_of 1 2 1 false (U 1)) = 1) by (cbn; field).
  split; [left; auto|]. split; [lra|]. split; [intros [|[|]]; unfold U; [exact I|apply dCO|apply dCO]|].
  split; [apply prim_init_good; [lra|cbn; lra|rewrite T; lra]|]. split; [intros a i; apply dCO|]. split.
  - eapply (deriv_ext (fun t => 0 + (- (1 / t) + 2 * (1/2 * (0 / t * (0 / t) + 0 * 0 + 0 * 0))) / 1 / t * 0 + - (0 / t) / 1 / t * 0 + 1 / 1 / t * 1)); [exists 1; split; [lra|]; intros t _; reflexivity|].
    eapply deriv_eq; [|dd; try lra]. unfold Rsqr. field.
  - lazy [diff_tensors_sens snd Nat.ltb Nat.leb mvec sum Nat.add]. lra.
Qed.

Print Assumptions free_stream_state_partial.
Print Assumptions perturbation_is_derivative_partial.
Print Assumptions flux_jacobian_is_derivative.
Print Assumptions eigenvectors.
Print Assumptions entropy_jacobian_is_derivative.
Print Assumptions diffusion_tensor_sensitivity_partial.
Example demo_normal : unit_normal 1 (fun _ => -1) /\ unit_normal 2 (fun i => match i with 0%nat => 3/5 | _ => 4/5 end) /\ unit_normal 3 (fun i => match i with 0%nat => 2/3 | 1%nat => 1/3 | _ => 2/3 end).
Proof. unfold unit_normal. cbn. repeat split; field. Qed.
Print Assumptions flux_jacobian_direction_refused.
Print Assumptions flux_jacobian_third_direction_in_plane.
Print Assumptions diffusion_jacobian_no_heat.
Print Assumptions pressure_coefficient.
