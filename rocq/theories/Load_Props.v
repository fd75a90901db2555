From Coq Require Import Reals Lra.
From Coquelicot Require Import Coquelicot.
From Coq Require Import List Arith Bool Lia Permutation.
From Verif Require Import Base BaseLemmas RBool Sens_Spec Sens_Proofs Sens_Proofs2 Heat_Proofs Solid_Model Solid_Spec Solid_Proofs2 Dof6_Model Dof6_Proofs Beam_Spec Beam_Proofs Beam_Proofs2 Beam_Props
  Plate_Spec Load_Model Load_Spec Load_Proofs.
Import ListNotations.
Open Scope R_scope.

(** C154: surface pressure on beams and plates *)
Theorem C154_work : forall n dim t qs press f, (dim < 3)%nat -> exists f', pressure_residual dim false t qs press f = Ok f' /\
  carries n qs t (fun q => pressure_force dim (press q)) f f'.
Proof.
  intros n dim t qs press f Hd. eexists. split; [unfold pressure_residual; apply Nat.ltb_lt in Hd; rewrite Hd; reflexivity|].
  eapply carries_ext; [|apply carries_ok]. intros q k _ _. apply down_pressure.
Qed.
Print Assumptions C154_work.
Theorem C154_resultant : forall n dim t qs press f f' T, pressure_residual dim false t qs press f = Ok f' ->
  (forall q, In q qs -> sum n (phi q) = 1) ->
  dot6 n (minusf f' f) (translation T) = vec_in_axes t T dim * integral qs press.
Proof.
  intros n dim t qs press f f' T E HP. assert (Hd : (dim < 3)%nat). { unfold pressure_residual in E. destruct (Nat.ltb_spec dim 3); [auto|discriminate]. }
  destruct (C154_work n dim t qs press f Hd) as (g & E' & C). rewrite E in E'. injection E' as <-.
  rewrite (carries_resultant n qs t _ f f' T C HP). rewrite (integral_ext qs _ (fun q => - vec_in_axes t T dim * press q)); [rewrite integral_mul; ring|].
  intros q _. rewrite (sum_single 3 dim); auto; unfold pressure_force.
  - rewrite Nat.eqb_refl. ring.
  - intros k _ Hk. destruct (Nat.eqb_spec k dim); [lia|ring].
Qed.
Print Assumptions C154_resultant.
Theorem C154_no_moment : forall n dim t qs press f f' c a, pressure_residual dim false t qs press f = Ok f' -> (3 <= c < 6)%nat -> (a < n)%nat -> f' c a = f c a.
Proof.
  intros n dim t qs press f f' c a E Hc Ha. assert (Hd : (dim < 3)%nat). { unfold pressure_residual in E. destruct (Nat.ltb_spec dim 3); [auto|discriminate]. }
  destruct (C154_work n dim t qs press f Hd) as (g & E' & C). rewrite E in E'. injection E' as <-. eapply carries_no_moment; eauto.
Qed.
Print Assumptions C154_no_moment.
Theorem C154_sensitivity : forall n dim t qs (press : R -> qpt -> R) press' (t0 : R) f f0 F F' c a,
  (forall s, pressure_residual dim false t qs (press s) f = Ok (F s)) -> pressure_residual_sensitivity dim false t qs press' f0 = Ok F' ->
  (forall q, In q qs -> is_derive (fun s => press s q) t0 (press' q)) -> (c < 6)%nat -> (a < n)%nat ->
  is_derive (fun s => F s c a) t0 (F' c a - f0 c a).
Proof.
  intros n dim t qs press press' t0 f f0 F F' c a E E' D Hc Ha.
  assert (Hd : (dim < 3)%nat). { unfold pressure_residual_sensitivity in E'. destruct (Nat.ltb_spec dim 3); [auto|discriminate]. }
  apply (der_carries n qs t (fun s q => pressure_force dim (press s q)) (fun q => pressure_force dim (press' q)) f f0 F F' t0); auto.
  - intros s. destruct (C154_work n dim t qs (press s) f Hd) as (g & K & C). rewrite E in K. injection K as ->. exact C.
  - destruct (C154_work n dim t qs press' f0 Hd) as (g & K & C). change (pressure_residual_sensitivity dim false t qs press' f0 = Ok g) in K. rewrite E' in K. injection K as ->. exact C.
  - intros q k Hq Hk. unfold pressure_force. destruct (Nat.eqb k dim); [|apply (der_const 0)].
    apply (der_fun (fun s => -1 * press s q)); [intros; ring|]. eapply der_sc; [apply D; auto|ring].
Qed.
Print Assumptions C154_sensitivity.
(** the shape derivative: the pressure on the strip swept by the boundary *)
Theorem C154_boundary_velocity : forall n dim t side press vel f, (dim < 3)%nat -> exists f', pressure_boundary_velocity dim false t side press vel f = Ok f' /\
  carries n side t (fun q => pressure_force dim (press q * sum dim (fun i => vel q i * nrm q i))) f f'.
Proof.
  intros n dim t side press vel f Hd. eexists. split; [unfold pressure_boundary_velocity; apply Nat.ltb_lt in Hd; rewrite Hd; reflexivity|].
  intros d. rewrite dot_minusf, dot_plusf, dot_global, nodal_dot. unfold force_work, integral.
  rewrite (total_eq _ (fun q => jxw q * sum 3 (fun k => pressure_force dim (press q * sum dim (fun i => vel q i * nrm q i)) k * value n q (in_axes t d) k))); [ring|].
  intros q _. rewrite sum_force3, in_axes_eq, Rmult_assoc. f_equal. rewrite <- sum_scal_l. apply sum_ext. intros k _. rewrite down_pressure. unfold pressure_force.
  destruct (Nat.eqb k dim); ring.
Qed.
Print Assumptions C154_boundary_velocity.
(** small disturbances of the pressure, in the time and in the frequency domain *)
Theorem C154_linearized : forall n dim t qs press dpress f, (dim < 3)%nat -> exists f', linearized_pressure dim false t qs press dpress f = Ok f' /\
  carries n qs t (fun q => pressure_force dim (dpress q)) f f'.
Proof.
  intros n dim t qs press dpress f Hd. eexists. split; [unfold linearized_pressure; apply Nat.ltb_lt in Hd; rewrite Hd; reflexivity|].
  eapply carries_ext; [|apply carries_ok]. intros q k _ _. cbv beta. rewrite <- down_pressure. ring.
Qed.
Print Assumptions C154_linearized.
Theorem C154_frequency : forall n dim t qs press dpress f, (dim < 3)%nat -> exists f', frequency_pressure dim false t qs press dpress f = Ok f' /\
  carries n qs t (fun q => pressure_force dim (fst (dpress q))) (fst f) (fst f') /\ carries n qs t (fun q => pressure_force dim (snd (dpress q))) (snd f) (snd f').
Proof.
  intros n dim t qs press dpress f Hd. eexists. split; [unfold frequency_pressure; apply Nat.ltb_lt in Hd; rewrite Hd; reflexivity|]. cbn [fst snd].
  split; (eapply carries_ext; [|apply carries_ok]; intros q k _ _; cbv beta; rewrite <- down_pressure; ring).
Qed.
Print Assumptions C154_frequency.
Theorem C154_refused : forall dim follower t qs press press' vel dpress f g, (3 <= dim)%nat \/ follower = true ->
  pressure_residual dim follower t qs press f = Fault AssertFailed /\ pressure_residual_sensitivity dim follower t qs press f = Fault AssertFailed /\
  pressure_boundary_velocity dim follower t qs press vel f = Fault AssertFailed /\ linearized_pressure dim follower t qs press press' f = Fault AssertFailed /\
  frequency_pressure dim follower t qs press dpress g = Fault AssertFailed.
Proof.
  intros. unfold pressure_residual, pressure_residual_sensitivity, pressure_boundary_velocity, linearized_pressure, frequency_pressure.
  destruct (Nat.ltb_spec dim 3); [|repeat split]. destruct H as [H| ->]; [lia|]. repeat split.
Qed.
Print Assumptions C154_refused.
(** a plate in the plane x = 0: its normal is the x axis of the mesh *)
Definition turned : nat -> nat -> R := fun k l => match l, k with 0%nat, 1%nat => 1 | 1%nat, 2%nat => 1 | 2%nat, 0%nat => 1 | _, _ => 0 end.
Example C154_example : exists f', pressure_residual 2 false (Some turned) [q0 2] (fun _ => 3) zf = Ok f' /\
  (forall q, In q [q0 2] -> sum 2 (phi q) = 1) /\ f' 0%nat 1%nat = 3 /\ dot6 2 (minusf f' zf) (translation (fun k => if Nat.eqb k 0 then 1 else 0)) = 6.
Proof.
  destruct (C154_work 2 2 (Some turned) [q0 2] (fun _ => 3) zf ltac:(lia)) as (f' & E & C). exists f'.
  assert (H : forall q, In q [q0 2] -> sum 2 (phi q) = 1) by (intros q [<-|[]]; cbn; lra).
  split; [exact E|]. split; [exact H|]. split.
  - rewrite (carries_entry 2 _ _ _ _ _ 0 1 C) by lia. unfold force_work. rewrite integral_cons, integral_nil. unfold pressure_force, value, in_axes, turned, unit_dof, zf. cbn. lra.
  - rewrite (C154_resultant 2 2 (Some turned) [q0 2] (fun _ => 3) zf f' _ E H). rewrite integral_cons, integral_nil. cbn. lra.
Qed.

(** C155: tractions and pressure on the edge of a plate *)
Theorem C155_traction_partial : forall n t side trac h f, exists f', traction_residual false t side trac h f = Ok f' /\
  carries n side t (fun q k => trac q k * h q) f f'.
Proof. intros. eexists. split; [reflexivity|]. apply carries_ok. Qed.
Print Assumptions C155_traction_partial.
(** read in the axes of the mesh, the traction is right for elements without axes of their own *)
Theorem C155_traction_mesh_axes_partial : forall n side trac h f f', traction_residual false None side trac h f = Ok f' ->
  forall d, dot6 n (minusf f' f) d = - integral side (fun q => sum 3 (fun k => trac q k * h q * value n q d k)).
Proof.
  intros n side trac h f f' E d. destruct (C155_traction_partial n None side trac h f) as (g & E' & C). rewrite E in E'. injection E' as ->.
  rewrite (C d). reflexivity.
Qed.
Print Assumptions C155_traction_mesh_axes_partial.
Theorem C155_mesh_axes_refuted : exists n T side trac h f f' d,
  (forall i j, (i < 3)%nat -> (j < 3)%nat -> sum 3 (fun k => T k i * T k j) = if Nat.eqb i j then 1 else 0) /\
  traction_residual false (Some T) side trac h f = Ok f' /\
  dot6 n (minusf f' f) d <> - integral side (fun q => sum 3 (fun k => trac q k * h q * value n q d k)).
Proof.
  destruct (C155_traction_partial 2 (Some turned) [q0 1] (fun _ k => if Nat.eqb k 0 then 1 else 0) (fun _ => 1) zf) as (f' & E & C).
  exists 2%nat, turned, [q0 1], (fun _ k => if Nat.eqb k 0 then 1 else 0), (fun _ => 1), zf, f', (unit_dof 0 0). split; [|split; [exact E|]].
  - intros i j Hi Hj. destruct i as [|[|[|]]]; [| | |lia]; (destruct j as [|[|[|]]]; [| | |lia]); cbn; lra.
  - rewrite (C (unit_dof 0 0)). unfold force_work. rewrite !integral_cons, !integral_nil. unfold value, in_axes, turned, unit_dof. cbn. lra.
Qed.
Print Assumptions C155_mesh_axes_refuted.
Theorem C155_traction_sensitivity : forall n t side (trac : R -> qpt -> nat -> R) (h : R -> qpt -> R) trac' h' (t0 : R) f f0 F F' c a,
  (forall s, traction_residual false t side (trac s) (h s) f = Ok (F s)) ->
  traction_residual_sensitivity false t side (trac t0) (h t0) trac' h' f0 = Ok F' ->
  (forall q k, In q side -> (k < 3)%nat -> is_derive (fun s => trac s q k) t0 (trac' q k)) -> (forall q, In q side -> is_derive (fun s => h s q) t0 (h' q)) ->
  (c < 6)%nat -> (a < n)%nat -> is_derive (fun s => F s c a) t0 (F' c a - f0 c a).
Proof.
  intros n t side trac h trac' h' t0 f f0 F F' c a E E' D1 D2 Hc Ha.
  apply (der_carries n side t (fun s q k => trac s q k * h s q) (fun q k => trac t0 q k * h' q + trac' q k * h t0 q) f f0 F F' t0); auto.
  - intros s. specialize (E s). injection E as <-. apply carries_ok.
  - injection E' as <-. apply carries_ok.
  - intros q k Hq Hk. eapply der_mul; [apply D1; auto|apply D2; auto|ring].
Qed.
Print Assumptions C155_traction_sensitivity.
Theorem C155_edge_pressure : forall n t side press h f, exists f', edge_pressure_residual false t side press h f = Ok f' /\
  carries n side t (fun q k => press q * h q * nrm q k) f f'.
Proof. intros. eexists. split; [reflexivity|]. apply carries_ok. Qed.
Print Assumptions C155_edge_pressure.
Theorem C155_edge_pressure_sensitivity : forall n t side (press h : R -> qpt -> R) press' h' (t0 : R) f f0 F F' c a,
  (forall s, edge_pressure_residual false t side (press s) (h s) f = Ok (F s)) ->
  edge_pressure_residual_sensitivity false t side (press t0) (h t0) press' h' f0 = Ok F' ->
  (forall q, In q side -> is_derive (fun s => press s q) t0 (press' q)) -> (forall q, In q side -> is_derive (fun s => h s q) t0 (h' q)) ->
  (c < 6)%nat -> (a < n)%nat -> is_derive (fun s => F s c a) t0 (F' c a - f0 c a).
Proof.
  intros n t side press h press' h' t0 f f0 F F' c a E E' D1 D2 Hc Ha.
  apply (der_carries n side t (fun s q k => press s q * h s q * nrm q k) (fun q k => (press t0 q * h' q + press' q * h t0 q) * nrm q k) f f0 F F' t0); auto.
  - intros s. specialize (E s). injection E as <-. apply carries_ok.
  - injection E' as <-. apply carries_ok.
  - intros q k Hq Hk. eapply der_mul; [eapply der_mul; [apply D1; auto|apply D2; auto|reflexivity]|apply der_cst; reflexivity|]. ring.
Qed.
Print Assumptions C155_edge_pressure_sensitivity.
(** edge loads have a resultant and no moments *)
Theorem C155_resultant : forall n t side trac h f f' T, traction_residual false t side trac h f = Ok f' -> (forall q, In q side -> sum n (phi q) = 1) ->
  dot6 n (minusf f' f) (translation T) = - integral side (fun q => h q * sum 3 (fun k => trac q k * vec_in_axes t T k)).
Proof.
  intros n t side trac h f f' T E HP. destruct (C155_traction_partial n t side trac h f) as (g & E' & C). rewrite E in E'. injection E' as ->.
  rewrite (carries_resultant _ _ _ _ _ _ T C HP). f_equal. apply integral_ext. intros q _. rewrite <- sum_scal_l. apply sum_ext. intros; ring.
Qed.
Print Assumptions C155_resultant.
Theorem C155_follower_refused : forall t side trac trac' h h' press press' f,
  traction_residual true t side trac h f = Fault AssertFailed /\ traction_residual_sensitivity true t side trac h trac' h' f = Fault AssertFailed /\
  edge_pressure_residual true t side press h f = Fault AssertFailed /\ edge_pressure_residual_sensitivity true t side press h press' h' f = Fault AssertFailed.
Proof. repeat split. Qed.
Print Assumptions C155_follower_refused.
Example C155_example : exists f', traction_residual false (Some turned) [q0 2] (fun _ k => if Nat.eqb k 0 then 3 else 1) (fun _ => 1/2) zf = Ok f' /\
  (forall q, In q [q0 2] -> sum 2 (phi q) = 1) /\ is_derive (fun s : R => s * 3) 1 3 /\
  dot6 2 (minusf f' zf) (translation (fun k => if Nat.eqb k 1 then 1 else 0)) = -3.
Proof.
  destruct (C155_traction_partial 2 (Some turned) [q0 2] (fun _ k => if Nat.eqb k 0 then 3 else 1) (fun _ => 1/2) zf) as (f' & E & C). exists f'.
  assert (H : forall q, In q [q0 2] -> sum 2 (phi q) = 1) by (intros q [<-|[]]; cbn; lra).
  split; [exact E|]. split; [exact H|]. split; [auto_derive; [exact I|ring]|].
  rewrite (C155_resultant 2 (Some turned) [q0 2] _ _ zf f' _ E H). rewrite integral_cons, integral_nil. cbn. lra.
Qed.

(** C159: every load of an element is applied once *)
Section Sel.
Context {load I : Type}.
Variable kind : load -> bctype.
Theorem C159_sides : forall (what : nat -> load -> outcome (I -> R)) (d : nat -> load -> I -> R) nsides bids bc st,
  (forall s l, applies nsides bids bc s l -> side_rule (kind l) <> Refuse /\ (side_rule (kind l) = Apply -> what s l = Ok (d s l))) ->
  exists st', side_external load kind I what side_rule nsides bids bc st = Ok st' /\
  forall i, st' i = st i + total_over nsides bids bc (fun s l => match kind l with
    | SURFACE_PRESSURE | SURFACE_TRACTION | SURFACE_TRACTION_SHIFTED_BOUNDARY | PISTON_THEORY => d s l i | _ => 0 end).
Proof.
  intros what d nsides bids bc st H. destruct (apply_all_ok kind what side_rule (side_loads load nsides bids bc) st d) as (st' & E & K).
  - intros s l Hl. apply H. now apply side_in.
  - exists st'. split; [exact E|]. intros i. rewrite K. f_equal.
    rewrite <- (side_total (fun s l => match kind l with SURFACE_PRESSURE | SURFACE_TRACTION | SURFACE_TRACTION_SHIFTED_BOUNDARY | PISTON_THEORY => d s l i | _ => 0 end)).
    apply total_eq. intros [s l] _. cbn [fst snd]. destruct (kind l); reflexivity.
Qed.
Theorem C159_volume : forall (what : nat -> load -> outcome (I -> R)) (d : load -> I -> R) sid bc st,
  (forall l, In (sid, l) bc -> (kind l = SURFACE_PRESSURE \/ kind l = PISTON_THEORY \/ kind l = TEMPERATURE) /\ what O l = Ok (d l)) ->
  exists st', volume_external load kind I what volume_rule sid bc st = Ok st' /\
  forall i, st' i = st i + total (fun e => if Nat.eqb (fst e) sid then d (snd e) i else 0) bc.
Proof.
  intros what d sid bc st H. destruct (apply_all_ok kind what volume_rule (map (pair O) (equal_range load bc sid)) st (fun _ => d)) as (st' & E & K).
  - intros s l Hl. apply in_map_iff in Hl. destruct Hl as (l' & E & Hl). injection E as <- ->. unfold equal_range in Hl. apply in_map_iff in Hl. destruct Hl as ((k, l') & E & Hl).
    cbn in E. subst. apply filter_In in Hl. destruct Hl as [Hl Hk]. cbn in Hk. apply Nat.eqb_eq in Hk. subst. destruct (H l Hl) as [[-> | [-> | ->]] H2]; (split; [discriminate|auto]).
  - exists st'. split; [exact E|]. intros i. rewrite K. f_equal. unfold equal_range. rewrite !total_map, total_filter. cbn [fst snd]. apply total_eq. intros [k l] Hl. cbn [fst snd].
    destruct (Nat.eqb_spec k sid) as [->|]; [|reflexivity]. destruct (H l Hl) as [[-> | [-> | ->]] _]; reflexivity.
Qed.
(** a load of a type the routine does not know is an error, not ignored *)
Theorem C159_unknown : forall (what : nat -> load -> outcome (I -> R)) rule nsides bids bc st s l,
  applies nsides bids bc s l -> rule (kind l) = Refuse -> (forall s l, rule (kind l) = Apply -> exists d, what s l = Ok d) ->
  side_external load kind I what rule nsides bids bc st = Fault LibError.
Proof. intros what rule nsides bids bc st s l H. apply (apply_all_refuse kind what rule _ st s l). now apply side_in. Qed.
(** the order in which loads were added is immaterial *)
Lemma total_perm {A} (g : A -> R) l m : Permutation l m -> total g l = total g m.
Proof. induction 1; rewrite ?tcons; try ring; [rewrite IHPermutation; ring|congruence]. Qed.
Theorem C159_order : forall (what : nat -> load -> outcome (I -> R)) (d : nat -> load -> I -> R) nsides bids bc bc' st,
  Permutation bc bc' ->
  (forall s l, applies nsides bids bc s l -> side_rule (kind l) <> Refuse /\ (side_rule (kind l) = Apply -> what s l = Ok (d s l))) ->
  exists x y, side_external load kind I what side_rule nsides bids bc st = Ok x /\ side_external load kind I what side_rule nsides bids bc' st = Ok y /\ forall i, x i = y i.
Proof.
  intros what d nsides bids bc bc' st P H. destruct (C159_sides what d nsides bids bc st H) as (x & Ex & Hx).
  destruct (C159_sides what d nsides bids bc' st) as (y & Ey & Hy).
  { intros s l (Hs & id & Hid & Hl). apply H. split; [exact Hs|]. exists id. split; [exact Hid|]. eapply Permutation_in; [apply Permutation_sym, P|exact Hl]. }
  exists x, y. split; [exact Ex|]. split; [exact Ey|]. intros i. rewrite Hx, Hy. f_equal. unfold total_over. apply sum_ext. intros s _. apply total_eq. intros id _.
  now apply total_perm.
Qed.
(** what the routine for sensitivities adds is the derivative of what the residual adds *)
Theorem C159_sensitivity : forall (what : R -> nat -> load -> outcome (I -> R)) (what' : nat -> load -> outcome (I -> R)) (d : R -> nat -> load -> I -> R) (d' : nat -> load -> I -> R)
    nsides bids bc (st st0 : I -> R) (t0 : R) (X : R -> I -> R) X' i,
  (forall s k l, applies nsides bids bc k l -> side_rule (kind l) = Apply -> what s k l = Ok (d s k l)) ->
  (forall k l, applies nsides bids bc k l -> side_rule (kind l) = Apply -> what' k l = Ok (d' k l)) ->
  (forall k l, applies nsides bids bc k l -> side_rule (kind l) <> Refuse) ->
  (forall k l, applies nsides bids bc k l -> is_derive (fun s => d s k l i) t0 (d' k l i)) ->
  (forall s, side_external load kind I (what s) side_rule nsides bids bc st = Ok (X s)) ->
  side_external load kind I what' side_sensitivity_rule nsides bids bc st0 = Ok X' ->
  is_derive (fun s => X s i) t0 (X' i - st0 i).
Proof.
  intros what what' d d' nsides bids bc st st0 t0 X X' i W W' N D E E'.
  assert (G : forall s, X s i = st i + total (fun e => match side_rule (kind (snd e)) with Apply => d s (fst e) (snd e) i | _ => 0 end) (side_loads load nsides bids bc)).
  { intros s. destruct (apply_all_ok kind (what s) side_rule (side_loads load nsides bids bc) st (d s)) as (x & Ex & Hx).
    - intros k l Hl. apply side_in in Hl. split; [now apply (N k)|now apply W].
    - specialize (E s). unfold side_external in E. rewrite E in Ex. injection Ex as <-. apply Hx. }
  assert (G' : X' i = st0 i + total (fun e => match side_sensitivity_rule (kind (snd e)) with Apply => d' (fst e) (snd e) i | _ => 0 end) (side_loads load nsides bids bc)).
  { destruct (apply_all_ok kind what' side_sensitivity_rule (side_loads load nsides bids bc) st0 d') as (x & Ex & Hx).
    - intros k l Hl. apply side_in in Hl. split.
      + pose proof (N k l Hl) as K. destruct (kind l); try discriminate; exact K.
      + intros K. apply (W' k l Hl). destruct (kind l); try discriminate; reflexivity.
    - unfold side_external in E'. rewrite E' in Ex. injection Ex as <-. apply Hx. }
  apply (der_fun (fun s => st i + total (fun e => match side_rule (kind (snd e)) with Apply => d s (fst e) (snd e) i | _ => 0 end) (side_loads load nsides bids bc))); [intros; now rewrite G|].
  rewrite G'. eapply der_add; [apply der_cst; reflexivity| |].
  - apply (Sens_Proofs2.der_total (side_loads load nsides bids bc) (fun e s => match side_rule (kind (snd e)) with Apply => d s (fst e) (snd e) i | _ => 0 end)
      (fun e => match side_sensitivity_rule (kind (snd e)) with Apply => d' (fst e) (snd e) i | _ => 0 end)).
    intros [k l] Hl. apply side_in in Hl. cbn [fst snd]. pose proof (D k l Hl) as Dk. destruct (kind l); cbn [side_rule side_sensitivity_rule]; first [exact Dk|apply (der_const 0)].
  - ring.
Qed.
End Sel.
Print Assumptions C159_sides.
Print Assumptions C159_volume.
Print Assumptions C159_unknown.
Print Assumptions C159_order.
Print Assumptions C159_sensitivity.
(** the linearised routine knows no side loads at all *)
Theorem C159_linearized_sides : forall (load I : Type) (kind : load -> bctype) what nsides bids bc (st : I -> R) s l,
  applies nsides bids bc s l -> kind l <> BOUNDARY_VELOCITY -> kind l <> DIRICHLET ->
  side_external load kind I what linearized_side_rule nsides bids bc st = Fault LibError.
Proof.
  intros load I kind what nsides bids bc st s l H H1 H2. apply (C159_unknown kind what linearized_side_rule nsides bids bc st s l H).
  - destruct (kind l); try reflexivity; contradiction.
  - intros k m Hm. destruct (kind m); discriminate.
Qed.
Print Assumptions C159_linearized_sides.
Example C159_example : let bc := [(7%nat, SURFACE_PRESSURE); (3%nat, SURFACE_TRACTION); (7%nat, DIRICHLET)] in
  let bids := fun i => match i with 1%nat => [7%nat] | 2%nat => [7%nat; 3%nat] | _ => [] end in
  (forall s l, applies 4 bids bc s l -> side_rule l <> Refuse) /\
  exists x, side_external bctype (fun l => l) unit (fun s l => Ok (fun _ => INR s)) side_rule 4 bids bc (fun _ => 0) = Ok x /\ x tt = 5.
Proof.
  intros bc bids. split.
  - intros s l (_ & id & _ & H). unfold bc in H. destruct H as [H|[H|[H|[]]]]; injection H as <- <-; discriminate.
  - eexists. split; [reflexivity|]. cbn. lra.
Qed.
