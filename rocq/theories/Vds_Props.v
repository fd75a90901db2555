(** C223: the unknowns in the void of homogenised elements follow the iterates of a nonlinear solve. *)
From Coq Require Import List Arith Bool Reals Lra Lia Permutation.
From Verif Require Import Base BaseLemmas Sens_Model Sens_Spec Sens_Proofs Vds_Model Vds_Spec Vds_Proofs.
Import ListNotations.
Open Scope R_scope.

(** after every iteration the void unknowns of every homogenised element are one Newton step of its void equations further, taken at the
    iterate before the step and for the whole update of the system *)
Theorem C223_step inv es l lam Y X0 st : (forall e, In e es -> ve_fac e = true -> good_elem inv e) -> stored es st ->
  exists s s', solve inv es true l X0 st = Ok s /\ solve inv es true (l ++ [(lam, Y)]) X0 st = Ok s' /\
    (forall d, mo_X s' d = mo_X s d - lam * Y d) /\
    forall e, In e es -> ve_fac e = true -> exists a b, mo_st s (ve_id e) = Some a /\ mo_st s' (ve_id e) = Some b /\ linearised e (mo_X s) (fun d => - Y d) a b.
Proof. intros G S. now apply solve_last. Qed.
(** linear elements and full steps: the void equations hold after every iteration *)
Theorem C223_full_partial inv es l Y X0 st : (forall e, In e es -> ve_fac e = true -> good_elem inv e) -> stored es st ->
  exists s, solve inv es true (l ++ [(1, Y)]) X0 st = Ok s /\
    forall e K b, In e es -> ve_fac e = true -> linear_elem e K b -> exists v, mo_st s (ve_id e) = Some v /\
      forall i, (i < length (ve_void e))%nat -> ve_res e (full_state e (mo_X s) v) (nth i (ve_void e) O) = 0.
Proof.
  intros G S. destruct (solve_last inv es l 1 Y G X0 st S) as (s & s' & E & E' & HX & H). exists s'. split; auto.
  intros e K b Ie Fe Li. destruct (H e Ie Fe) as (a & v & A & B & L). exists v. split; auto. intros i Hi.
  rewrite (linear_residual e K b (mo_X s) (mo_X s') a v 1 Y (proj1 (G e Ie Fe)) Li L HX i Hi). ring.
Qed.
(** a shortened step leaves a residual behind in the void *)
Theorem C223_damped inv es l lam Y X0 st : (forall e, In e es -> ve_fac e = true -> good_elem inv e) -> stored es st ->
  exists s, solve inv es true (l ++ [(lam, Y)]) X0 st = Ok s /\
    forall e K b, In e es -> ve_fac e = true -> linear_elem e K b -> exists v, mo_st s (ve_id e) = Some v /\
      forall i, (i < length (ve_void e))%nat -> ve_res e (full_state e (mo_X s) v) (nth i (ve_void e) O) =
        (1 - lam) * sum (length (ve_mat e)) (fun j => K (nth i (ve_void e) O) (nth j (ve_mat e) O) * Y (nth (nth j (ve_mat e) O) (ve_dofs e) O)).
Proof.
  intros G S. destruct (solve_last inv es l lam Y G X0 st S) as (s & s' & E & E' & HX & H). exists s'. split; auto.
  intros e K b Ie Fe Li. destruct (H e Ie Fe) as (a & v & A & B & L). exists v. split; auto. intros i Hi.
  exact (linear_residual e K b (mo_X s) (mo_X s') a v lam Y (proj1 (G e Ie Fe)) Li L HX i Hi).
Qed.
(** an element with one material and one void unknown *)
Definition vK : matrix := fun k l => if (k =? l)%nat then 2 else - 1.
Definition vel : velem := mkVe 7 [3; 5]%nat true [0]%nat [1]%nat (fun s k => sum 2 (fun j => vK k j * s j) - 1) (fun _ => vK) (1 / 2).
Definition vinv : nat -> matrix -> matrix := fun _ M i j => 1 / M i j.
Definition vst : vstore := fun id => if (id =? 7)%nat then Some (fun _ => 0) else None.
Lemma vel_good : good_elem vinv vel.
Proof.
  split; [split; [apply Permutation_refl|split; discriminate]|]. split.
  - intros a b H. split; [|reflexivity]. intros k. cbn. now rewrite !H.
  - split; [cbn; lra|]. intros s i k Hi Hk. cbn in Hi, Hk. assert (i = 0%nat) by lia. assert (k = 0%nat) by lia. subst. cbn. unfold vinv, vK. cbn. field.
Qed.
Lemma vel_stored : stored [vel] vst.
Proof. split; [repeat constructor; intros []|]. intros e [<-|[]] _. discriminate. Qed.
Lemma vel_linear : linear_elem vel vK (fun _ => 1).
Proof. intros s. split; reflexivity. Qed.
Example C223_example : (forall e, In e [vel] -> ve_fac e = true -> good_elem vinv e) /\ stored [vel] vst /\ linear_elem vel vK (fun _ => 1).
Proof. split; [intros e [<-|[]] _; apply vel_good|split; [apply vel_stored|apply vel_linear]]. Qed.
Theorem C223_damped_refuted : exists inv es lam Y X0 st e K b s v, (forall e, In e es -> ve_fac e = true -> good_elem inv e) /\ stored es st /\
  In e es /\ ve_fac e = true /\ linear_elem e K b /\ 0 < lam < 1 /\ solve inv es true [(lam, Y)] X0 st = Ok s /\ mo_st s (ve_id e) = Some v /\
  ve_res e (full_state e (mo_X s) v) (nth 0 (ve_void e) O) <> 0.
Proof.
  assert (G : forall e, In e [vel] -> ve_fac e = true -> good_elem vinv e) by (intros e [<-|[]] _; apply vel_good).
  destruct (C223_damped vinv [vel] [] (1 / 2) (fun _ => 1) (fun _ => 0) vst G vel_stored) as (s & E & H).
  destruct (H vel vK (fun _ => 1) (or_introl eq_refl) eq_refl vel_linear) as (v & A & B).
  exists vinv, [vel], (1 / 2), (fun _ => 1), (fun _ => 0), vst, vel, vK, (fun _ => 1), s, v.
  split; auto. split; [apply vel_stored|]. split; [now left|]. split; [reflexivity|]. split; [apply vel_linear|]. split; [lra|]. split; [exact E|]. split; [exact A|].
  rewrite B by (cbn; lia). cbn. unfold vK. cbn. lra.
Qed.
(** entries of other elements stay; without iterations, and outside a solve, nothing changes *)
Theorem C223_untouched inv es l X0 st : (forall e, In e es -> ve_fac e = true -> good_elem inv e) -> stored es st ->
  exists s, solve inv es true l X0 st = Ok s /\ forall id, (forall e, In e es -> ve_fac e = true -> ve_id e <> id) -> mo_st s id = st id.
Proof. intros G S. destruct (solve_ok inv es l G X0 st S) as (s & E & _ & _ & K). exists s. auto. Qed.
Theorem C223_start inv es X0 st : exists s, solve inv es true [] X0 st = Ok s /\ mo_st s = st /\ mo_X s = X0.
Proof. eexists. split; [reflexivity|]. auto. Qed.
Lemma idle_steps inv es l : forall its s, exists s', steps inv es false its l s = Ok s' /\ mo_st s' = mo_st s.
Proof.
  induction l as [|(lam, Y) l IH]; intros its s; [eexists; split; reflexivity|]. cbn [steps monitor negb bind].
  destruct (IH (S its) (mkMon (fun d => mo_X s d - lam * Y d) (mo_old s) (mo_st s))) as (s' & E & Q). exists s'. auto.
Qed.
Theorem C223_idle inv es l X0 st : exists s, solve inv es false l X0 st = Ok s /\ mo_st s = st.
Proof. unfold solve. cbn [monitor negb bind]. apply (idle_steps inv es l 0%nat (mkMon X0 None st)). Qed.
(** an element that was never initialised stops the solve at its first iteration *)
Lemma fault_elems inv X dX es f : fold_left (void_elem inv X dX) es (Fault f) = Fault f.
Proof. induction es; cbn; auto. Qed.
Theorem C223_missing inv e es lam Y l X0 (st : vstore) : ve_fac e = true -> st (ve_id e) = None ->
  solve inv (e :: es) true ((lam, Y) :: l) X0 st = Fault AssertFailed.
Proof.
  intros F E. unfold solve. cbn [monitor negb bind steps mo_old]. unfold update_void. cbn [fold_left mo_st].
  assert (Q : forall X D, void_elem inv X D (@Ok vstore st) e = Fault AssertFailed) by (intros X D; unfold void_elem; cbn [bind]; rewrite F; unfold vlocal; cbn [negb]; now rewrite E).
  rewrite Q, fault_elems. reflexivity.
Qed.
(** detaching removes the monitors of others as well; attaching twice is refused *)
Theorem C223_cancel_refuted k l s : vcalls l = Ok (true, s) -> In (S k) s -> vcalls (l ++ [VClear]) = Ok (false, []).
Proof. intros E _. unfold vcalls in *. rewrite fold_left_app, E. reflexivity. Qed.
Example C223_cancel_example : vcalls [VOther 4; VInit] = Ok (true, [5; 0]%nat) /\ vcalls [VOther 4; VInit; VClear] = Ok (false, []).
Proof. split; reflexivity. Qed.
Theorem C223_init_twice l s : vcalls l = Ok (true, s) -> vcalls (l ++ [VInit]) = Fault AssertFailed.
Proof. intros E. unfold vcalls in *. rewrite fold_left_app, E. reflexivity. Qed.
Theorem C223_reattach l s : vcalls l = Ok (true, s) -> vcalls (l ++ [VClear; VInit]) = Ok (true, [0]%nat).
Proof. intros E. unfold vcalls in *. rewrite fold_left_app, E. reflexivity. Qed.

Print Assumptions C223_step.
Print Assumptions C223_full_partial.
Print Assumptions C223_damped.
Print Assumptions C223_damped_refuted.
Print Assumptions C223_untouched.
Print Assumptions C223_start.
Print Assumptions C223_idle.
Print Assumptions C223_missing.
Print Assumptions C223_cancel_refuted.
Print Assumptions C223_init_twice.
Print Assumptions C223_reattach.
