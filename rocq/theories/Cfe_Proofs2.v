(** Proofs about the flow element: what a run over the points adds up. *)
From Coq Require Import Reals.
From Coquelicot Require Import Coquelicot.
From Coq Require Import List Arith Bool Lra Lia.
From Verif Require Import Base BaseLemmas RBool Stre_Proofs Stre_Proofs2 Flui_Model Flui_Spec Flui_Proofs Flui_Proofs2 Flui_Proofs3 Flui_Proofs5 Flui_Proofs6 Flui_Props Heat_Proofs Sens_Proofs2 Cfe_Model Cfe_Spec Cfe_Proofs.
Import ListNotations.
Open Scope R_scope.

Section Run.
Variables (d : nat) (cp cv : R) (nphi : nat).
Hypothesis D : valid_dim d.
Hypothesis G : 0 < cv < cp.
Let R0 := cp - cv.
Let gm := cp / cv.
Definition Afn (s : prim) (c : nat) : mx := adv_jac_fn d c (cp - cv) cv (cp / cv) s.
Definition Sfn (s : prim) (c : nat) : nat -> mx := get_ok (fun _ => mx0) (adv_jac_sens_cons d c (cp - cv) cv s).
Lemma sens_safe c s : (c < d)%nat -> adv_jac_sens_cons d c (cp - cv) cv s = Ok (Sfn s c).
Proof. intros H. unfold Sfn. destruct (ajsc_run d c (cp - cv) cv s D H) as (r & E & _). rewrite E. reflexivity. Qed.
Lemma nun_2 : nun d = (2 + d)%nat. Proof. unfold nun; lia. Qed.

Definition res_at (q : fpt) (x : evec) (s : prim) : vec := fun i => sum d (fun c => mvec (nun d) (Afn s c) (fe_dU nphi q x c) i).
Definition dc_at (shock : option (fpt -> evec -> vec)) (q : fpt) (x : evec) : vec := match shock with None => fun _ => 0 | Some h => h q x end.
Definition vol_f (tau : mx) (dc : vec) (x : evec) (q : fpt) (s : prim) : evec := fun v a =>
  sum d (fun c => - (fq_w q * (fq_dN q c a * flux_fn d c s v)) + fq_w q * dc c * (fq_dN q c a * fe_dU nphi q x c v))
  + fq_w q * sum (nun d) (fun i => ls_op d q (Afn s) tau i v a * res_at q x s i).
Definition vol_j (tau : mx) (dc : vec) (x : evec) (q : fpt) (s : prim) : emat := fun v a v' a' =>
  sum d (fun c => - (fq_w q * (fq_dN q c a * Afn s c v v' * fq_N q a'))
                  + fq_w q * dc c * (if Nat.eqb v v' then fq_dN q c a * fq_dN q c a' else 0))
  + fq_w q * sum (nun d) (fun i => ls_op d q (Afn s) tau i v a * sum d (fun c => Afn s c i v' * fq_dN q c a'))
  + fq_w q * sum (nun d) (fun i => ls_op d q (Afn s) tau i v a * a_sens d nphi q (Sfn s) x i v' a')
  + fq_w q * ls_sens d q (Afn s) (Sfn s) tau (res_at q x s) v a v' a'.

Lemma ls_op_ext q A B tau i v a : (forall c, (c < d)%nat -> A c = B c) -> ls_op d q A tau i v a = ls_op d q B tau i v a.
Proof. intros H. unfold ls_op. apply sum_ext. intros k _. f_equal. apply sum_ext. intros c Hc. rewrite H; auto. Qed.
Lemma mvec_ext n M x y i : (forall k, (k < n)%nat -> x k = y k) -> mvec n M x i = mvec n M y i.
Proof. intros H. unfold mvec. apply sum_ext. intros k Hk. rewrite H; auto. Qed.

Lemma vol_step_ok tau_of shock x q acc s : prim_init d cp cv false (fe_U nphi q x) = Ok s ->
  exists f j, vol_step d cp cv nphi tau_of shock x q acc = Ok (f, j) /\
    (forall v a, f v a = fst acc v a + vol_f (tau_of q s) (dc_at shock q x) x q s v a) /\
    (forall v a v' a', j v a v' a' = snd acc v a v' a' + vol_j (tau_of q s) (dc_at shock q x) x q s v a v' a').
Proof.
  intros H. unfold vol_step. rewrite H. cbn [bind].
  destruct (each_ok mx0 d (fun c => adv_jac d c (cp - cv) cv (cp / cv) s) (Afn s)) as (A & EA & QA).
  { intros c Hc. apply adv_jac_safe; auto. }
  destruct (each_ok (fun _ => mx0) d (fun c => adv_jac_sens_cons d c (cp - cv) cv s) (Sfn s)) as (B & EB & QB).
  { intros c Hc. apply sens_safe; auto. }
  destruct (each_ok (fun _ => 0) d (fun c => adv_flux d c s) (fun c => flux_fn d c s)) as (F & EF & QF).
  { intros c Hc. apply adv_flux_safe; auto. }
  rewrite EA. cbn [bind]. rewrite EB. cbn [bind]. rewrite EF. cbn [bind].
  eexists. eexists. split; [reflexivity|].
  assert (RR : forall i, sum d (fun c => mvec (nun d) (A c) (fe_dU nphi q x c) i) = res_at q x s i).
  { intros i. unfold res_at. apply sum_ext. intros c Hc. rewrite QA; auto. }
  split.
  - intros v a. cbn [fst]. f_equal. unfold vol_f. f_equal.
    + apply sum_ext. intros c Hc. rewrite QF by auto. reflexivity.
    + f_equal. apply sum_ext. intros i Hi. rewrite (ls_op_ext q A (Afn s)) by auto. rewrite RR. reflexivity.
  - intros v a v' a'. cbn [snd]. f_equal. unfold vol_j. f_equal; [f_equal; [f_equal|]|].
    + apply sum_ext. intros c Hc. rewrite QA by auto. reflexivity.
    + f_equal. apply sum_ext. intros i Hi. rewrite (ls_op_ext q A (Afn s)) by auto. f_equal. apply sum_ext. intros c Hc. rewrite QA; auto.
    + f_equal. apply sum_ext. intros i Hi. rewrite (ls_op_ext q A (Afn s)) by auto. f_equal. unfold a_sens. apply sum_ext. intros c Hc. rewrite QB; auto.
    + f_equal. unfold ls_sens. apply sum_ext. intros c Hc. rewrite QA, QB by auto. f_equal; f_equal; f_equal; apply mvec_ext; intros k Hk; apply mvec_ext; intros l Hl; auto.
Qed.
Lemma vol_step_inv tau_of shock x q acc r : vol_step d cp cv nphi tau_of shock x q acc = Ok r ->
  prim_init d cp cv false (fe_U nphi q x) = Ok (state_at d cp cv nphi x q).
Proof.
  unfold vol_step. destruct (prim_init d cp cv false (fe_U nphi q x)) as [s|] eqn:E; [|discriminate]. intros _.
  destruct (prim_init_ok _ _ _ _ _ _ G E) as (-> & _). reflexivity.
Qed.

(** A loop whose steps add a part each. *)
Section Adds.
Context {X : Type}.
Variables (step : X -> evec * emat -> outcome (evec * emat)) (ff : X -> evec) (jj : X -> emat) (ok : X -> Prop).
Hypothesis ADD : forall x acc, ok x -> exists f j, step x acc = Ok (f, j) /\
  (forall v a, f v a = fst acc v a + ff x v a) /\ (forall v a v' a', j v a v' a' = snd acc v a v' a' + jj x v a v' a').
Hypothesis NEED : forall x acc r, step x acc = Ok r -> ok x.
Lemma over_run l : forall acc, (forall x, In x l -> ok x) -> exists f j, over step l acc = Ok (f, j) /\
  (forall v a, f v a = fst acc v a + tot (fun x => ff x v a) l) /\ (forall v a v' a', j v a v' a' = snd acc v a v' a' + tot (fun x => jj x v a v' a') l).
Proof.
  induction l as [|x l IH]; intros [f0 j0] H; cbn [over].
  - exists f0, j0. split; auto. cbn. split; intros; ring.
  - destruct (ADD x (f0, j0)) as (f & j & E & Qf & Qj); [apply H; left; auto|]. rewrite E. cbn [bind].
    destruct (IH (f, j)) as (f' & j' & E' & Qf' & Qj'); [intros; apply H; right; auto|].
    exists f', j'. split; auto. cbn [tot fst snd] in *. split; intros; [rewrite Qf', Qf|rewrite Qj', Qj]; ring.
Qed.
Lemma over_need l : forall acc r, over step l acc = Ok r -> forall x, In x l -> ok x.
Proof.
  induction l as [|y l IH]; intros acc r; cbn [over]; [intros _ x []|].
  destruct (step y acc) as [s|] eqn:E; [|discriminate]. cbn [bind]. intros H x [<-|I]; [eapply NEED; eauto|eapply IH; eauto].
Qed.
Lemma over_sum l acc f j : over step l acc = Ok (f, j) -> (forall x, In x l -> ok x) /\
  (forall v a, f v a = fst acc v a + tot (fun x => ff x v a) l) /\ (forall v a v' a', j v a v' a' = snd acc v a v' a' + tot (fun x => jj x v a v' a') l).
Proof.
  intros H. assert (K := over_need l acc _ H). split; auto. destruct (over_run l acc K) as (f' & j' & E & Q). rewrite H in E. injection E as <- <-. exact Q.
Qed.
End Adds.

Definition good (x : evec) (q : fpt) : Prop := prim_init d cp cv false (fe_U nphi q x) = Ok (state_at d cp cv nphi x q).
Lemma good_iff x q : good x q <-> 0 < p_rho (state_at d cp cv nphi x q) /\ 0 < p_T (state_at d cp cv nphi x q).
Proof.
  split.
  - intros H. destruct (prim_init_ok _ _ _ _ _ _ G H) as (_ & A & B & _). auto.
  - intros [A B]. apply prim_init_good; auto.
Qed.
Lemma internal_sum tau_of shock qps x f j : internal_residual d cp cv nphi tau_of shock qps x = Ok (f, j) ->
  (forall q, In q qps -> good x q) /\
  (forall v a, f v a = tot (fun q => vol_f (tau_of q (state_at d cp cv nphi x q)) (dc_at shock q x) x q (state_at d cp cv nphi x q) v a) qps) /\
  (forall v a v' a', j v a v' a' = tot (fun q => vol_j (tau_of q (state_at d cp cv nphi x q)) (dc_at shock q x) x q (state_at d cp cv nphi x q) v a v' a') qps).
Proof.
  intros H. unfold internal_residual in H.
  destruct (over_sum (vol_step d cp cv nphi tau_of shock x)
    (fun q => vol_f (tau_of q (state_at d cp cv nphi x q)) (dc_at shock q x) x q (state_at d cp cv nphi x q))
    (fun q => vol_j (tau_of q (state_at d cp cv nphi x q)) (dc_at shock q x) x q (state_at d cp cv nphi x q)) (good x)) with (l := qps) (acc := (ev0, em0)) (f := f) (j := j) as (A & B & C); auto.
  - intros q acc K. apply vol_step_ok. exact K.
  - intros q acc r K. eapply vol_step_inv; eauto.
  - split; auto. cbn [fst snd] in *. unfold ev0, em0 in *. split; intros; [rewrite B|rewrite C]; ring.
Qed.
Lemma internal_runs tau_of shock qps x : physical d cp cv nphi x qps -> exists f j, internal_residual d cp cv nphi tau_of shock qps x = Ok (f, j).
Proof.
  intros H. unfold internal_residual.
  destruct (over_run (vol_step d cp cv nphi tau_of shock x)
    (fun q => vol_f (tau_of q (state_at d cp cv nphi x q)) (dc_at shock q x) x q (state_at d cp cv nphi x q))
    (fun q => vol_j (tau_of q (state_at d cp cv nphi x q)) (dc_at shock q x) x q (state_at d cp cv nphi x q)) (good x)) with (l := qps) (acc := (ev0, em0)) as (f & j & E & _); eauto.
  - intros q acc K. apply vol_step_ok. exact K.
  - intros q I. apply good_iff. apply H; auto.
Qed.

(** *** Velocity residual *)
Definition vel_f (tau : mx) (xd : evec) (q : fpt) (s : prim) : evec := fun v a =>
  fq_w q * (fq_N q a * fe_U nphi q xd v) + fq_w q * sum (nun d) (fun i => ls_op d q (Afn s) tau i v a * fe_U nphi q xd i).
Definition vel_j (tau : mx) (q : fpt) (s : prim) : emat := fun v a v' a' =>
  fq_w q * (if Nat.eqb v v' then fq_N q a * fq_N q a' else 0) + fq_w q * (ls_op d q (Afn s) tau v' v a * fq_N q a').
Lemma vel_step_ok tau_of x xd q acc : good x q -> exists f j, vel_step d cp cv nphi tau_of x xd q acc = Ok (f, j) /\
  (forall v a, f v a = fst acc v a + vel_f (tau_of q (state_at d cp cv nphi x q)) xd q (state_at d cp cv nphi x q) v a) /\
  (forall v a v' a', j v a v' a' = snd acc v a v' a' + vel_j (tau_of q (state_at d cp cv nphi x q)) q (state_at d cp cv nphi x q) v a v' a').
Proof.
  intros H. unfold vel_step. rewrite H. cbn [bind]. set (s := state_at d cp cv nphi x q).
  destruct (each_ok mx0 d (fun c => adv_jac d c (cp - cv) cv (cp / cv) s) (Afn s)) as (A & EA & QA).
  { intros c Hc. apply adv_jac_safe; auto. }
  rewrite EA. cbn [bind]. eexists. eexists. split; [reflexivity|]. split.
  - intros v a. unfold vel_f. rewrite <- Rplus_assoc. f_equal. f_equal. apply sum_ext. intros i Hi. rewrite (ls_op_ext q A (Afn s)) by auto. reflexivity.
  - intros v a v' a'. unfold vel_j. rewrite <- Rplus_assoc. f_equal. f_equal. rewrite (ls_op_ext q A (Afn s)) by auto. reflexivity.
Qed.
Lemma vel_step_inv tau_of x xd q acc r : vel_step d cp cv nphi tau_of x xd q acc = Ok r -> good x q.
Proof.
  unfold vel_step, good. destruct (prim_init d cp cv false (fe_U nphi q x)) as [s|] eqn:E; [|discriminate]. intros _.
  destruct (prim_init_ok _ _ _ _ _ _ G E) as (-> & _). reflexivity.
Qed.
Lemma velocity_sum tau_of qps x xd f j j' : velocity_residual d cp cv nphi tau_of qps x xd = Ok (f, j, j') ->
  (forall q, In q qps -> good x q) /\
  (forall v a, f v a = tot (fun q => vel_f (tau_of q (state_at d cp cv nphi x q)) xd q (state_at d cp cv nphi x q) v a) qps) /\
  (forall v a v' a', j v a v' a' = tot (fun q => vel_j (tau_of q (state_at d cp cv nphi x q)) q (state_at d cp cv nphi x q) v a v' a') qps) /\ j' = em0.
Proof.
  unfold velocity_residual. destruct (over (vel_step d cp cv nphi tau_of x xd) qps (ev0, em0)) as [[f1 j1]|] eqn:E; [|discriminate].
  cbn [bind fst snd]. intros H. injection H as <- <- <-.
  destruct (over_sum (vel_step d cp cv nphi tau_of x xd) (fun q => vel_f (tau_of q (state_at d cp cv nphi x q)) xd q (state_at d cp cv nphi x q))
    (fun q => vel_j (tau_of q (state_at d cp cv nphi x q)) q (state_at d cp cv nphi x q)) (good x)) with (l := qps) (acc := (ev0, em0)) (f := f1) (j := j1) as (A & B & C); auto.
  - intros q acc K. apply vel_step_ok. exact K.
  - intros q acc r K. eapply vel_step_inv; eauto.
  - split; auto. cbn [fst snd] in *. unfold ev0, em0 in *. split; [|split]; auto; intros; [rewrite B|rewrite C]; ring.
Qed.

(** *** Sides *)
Definition adds (w : R) (N : nat -> R) (g : vec) : evec := fun v a => w * (N a * g v).
Definition addm (w : R) (N : nat -> R) (M : mx) : emat := fun v a v' a' => w * (N a * M v v' * N a').
Definition wallJ (s : prim) (w : R) (nv dn : vec) : mx := wall_fn d (cp - cv) cv s w nv dn.
Definition sym_flux (s : prim) (n : vec) : vec := fun v => if (Nat.ltb 0 v && Nat.leb v d)%bool then p_p s * n (v - 1)%nat else 0.
Lemma sym_step_ok x q acc : good x q -> exists f j, sym_step d cp cv nphi x q acc = Ok (f, j) /\
  (forall v a, f v a = fst acc v a + adds (fq_w q) (fq_N q) (sym_flux (state_at d cp cv nphi x q) (fq_n q)) v a) /\
  (forall v a v' a', j v a v' a' = snd acc v a v' a' + addm (fq_w q) (fq_N q) (wallJ (state_at d cp cv nphi x q) 0 (fq_n q) (fun _ => 0)) v a v' a').
Proof.
  intros H. unfold sym_step. rewrite H. cbn [bind]. rewrite wall_safe by auto. cbn [bind].
  eexists. eexists. split; [reflexivity|]. cbn [fst snd]. split; reflexivity.
Qed.
Lemma sym_step_inv x q acc r : sym_step d cp cv nphi x q acc = Ok r -> good x q.
Proof.
  unfold sym_step, good. destruct (prim_init d cp cv false (fe_U nphi q x)) as [s|] eqn:E; [|discriminate]. intros _.
  destruct (prim_init_ok _ _ _ _ _ _ G E) as (-> & _). reflexivity.
Qed.
Definition slip_speed (b : slip) (q : fpt) (s : prim) : R :=
  dot3 (at_pt (sl_vel b) q) (fun i => pad d (fq_n q) i + at_pt (sl_rot b) q i) - dot3 (uvec d s) (at_pt (sl_rot b) q).
Definition slip_flux (b : slip) (q : fpt) (U : vec) (s : prim) : vec := fun v =>
  slip_speed b q s * U v + (if Nat.eqb v (d + 1) then slip_speed b q s * p_p s else 0)
  + (if (Nat.ltb 0 v && Nat.leb v d)%bool then p_p s * pad d (fq_n q) (v - 1)%nat else 0).
Lemma slip_step_ok b x q acc : good x q -> exists f j, slip_step d cp cv nphi b x q acc = Ok (f, j) /\
  (forall v a, f v a = fst acc v a + adds (fq_w q) (fq_N q) (slip_flux b q (fe_U nphi q x) (state_at d cp cv nphi x q)) v a) /\
  (forall v a v' a', j v a v' a' = snd acc v a v' a' + addm (fq_w q) (fq_N q) (wallJ (state_at d cp cv nphi x q) (slip_speed b q (state_at d cp cv nphi x q)) (fq_n q) (at_pt (sl_rot b) q)) v a v' a').
Proof.
  intros H. unfold slip_step. rewrite H. cbn [bind]. rewrite wall_safe by auto. cbn [bind].
  eexists. eexists. split; [reflexivity|]. cbn [fst snd]. split; reflexivity.
Qed.
Lemma slip_step_inv b x q acc r : slip_step d cp cv nphi b x q acc = Ok r -> good x q.
Proof.
  unfold slip_step, good. destruct (prim_init d cp cv false (fe_U nphi q x)) as [s|] eqn:E; [|discriminate]. intros _.
  destruct (prim_init_ok _ _ _ _ _ _ G E) as (-> & _). reflexivity.
Qed.
Definition Efn (s : prim) (n : vec) : vec * mx * mx := eig_fn d cv (cp / cv) s n.
Definition far_flux (U Ui : vec) (s : prim) (n : vec) : vec := fun v =>
  mvec (nun d) (split_mat d incoming (Efn s n)) Ui v + mvec (nun d) (split_mat d outgoing (Efn s n)) U v.
Definition unit_at (q : fpt) : Prop := unit_normal d (fq_n q).
Lemma good_facts x q : good x q -> let s := state_at d cp cv nphi x q in
  0 < p_rho s /\ 0 < p_T s /\ p_a s <> 0 /\ state d cp cv s /\ p_a s * p_a s = cp / cv * (cp - cv) * p_T s.
Proof.
  intros H s. apply good_iff in H. destruct H as [A B]. fold s in A, B.
  assert (Q : 0 < cp / cv * (cp - cv)) by (apply Rmult_lt_0_compat; [apply Rdiv_lt_0_compat|]; lra).
  assert (QT := Rmult_lt_0_compat _ _ Q B).
  repeat split; auto; try reflexivity; try apply (state_of d cp cv false).
  - apply Rgt_not_eq, sqrt_lt_R0. exact QT.
  - apply sqrt_sqrt; apply Rlt_le; exact QT.
Qed.
Lemma eig_runs x q : good x q -> unit_at q -> eig d cv (cp / cv) (state_at d cp cv nphi x q) (fq_n q) = Ok (Efn (state_at d cp cv nphi x q) (fq_n q)).
Proof.
  intros H K. destruct (good_facts x q H) as (A & B & C & E & F). apply (eig_safe d cp cv); auto; lra.
Qed.
Lemma far_step_ok inf x q acc : good x q -> unit_at q -> exists f j, far_step d cp cv nphi inf x q acc = Ok (f, j) /\
  (forall v a, f v a = fst acc v a + adds (fq_w q) (fq_N q) (far_flux (fe_U nphi q x) (inf q) (state_at d cp cv nphi x q) (fq_n q)) v a) /\
  (forall v a v' a', j v a v' a' = snd acc v a v' a' + addm (fq_w q) (fq_N q) (split_mat d outgoing (Efn (state_at d cp cv nphi x q) (fq_n q))) v a v' a').
Proof.
  intros H K. unfold far_step. rewrite H. cbn [bind]. rewrite eig_runs by auto. cbn [bind].
  eexists. eexists. split; [reflexivity|]. cbn [fst snd]. split.
  - intros v a. unfold add_vec, adds, far_flux. ring.
  - reflexivity.
Qed.
Lemma far_step_inv inf x q acc r : far_step d cp cv nphi inf x q acc = Ok r -> good x q.
Proof.
  unfold far_step, good. destruct (prim_init d cp cv false (fe_U nphi q x)) as [s|] eqn:E; [|discriminate]. intros _.
  destruct (prim_init_ok _ _ _ _ _ _ G E) as (-> & _). reflexivity.
Qed.
(** The two halves of the matrix make up the matrix along the normal. *)
Lemma split_whole x q : good x q -> unit_at q -> let s := state_at d cp cv nphi x q in
  forall i j, (i < nun d)%nat -> (j < nun d)%nat ->
  split_mat d incoming (Efn s (fq_n q)) i j + split_mat d outgoing (Efn s (fq_n q)) i j = along d (Afn s) (fq_n q) i j.
Proof.
  intros H K s i j Hi Hj. destruct (good_facts x q H) as (A & B & C & E & F). fold s in A, B, C, E, F.
  assert (CV : cv <> 0) by lra. assert (CP : cp <> 0) by lra. assert (CC : cp <> cv) by lra.
  assert (EL := eig_left d cp cv s (fq_n q) D CV CP CC C E F K).
  assert (EI := eig_inv d cp cv s (fq_n q) D CV CP CC C E F K).
  fold (Efn s (fq_n q)) in EL, EI. destruct (Efn s (fq_n q)) as [[lam L] LI]. cbn [fst snd] in *. unfold split_mat. rewrite <- sum_plus.
  rewrite nun_2 in *.
  rewrite (sum_ext _ _ (fun k => LI i k * (lam k * L j k))).
  2:{ intros k _. unfold incoming, outgoing. destruct (rltb (lam k) 0) eqn:I; destruct (rltb 0 (lam k)) eqn:O.
      - apply rltb_true in I, O. lra.
      - ring.
      - ring.
      - apply rltb_false in I, O. replace (lam k) with 0 by lra. ring. }
  rewrite (sum_ext _ _ (fun k => LI i k * sum (2 + d) (fun l => L l k * along d (Afn s) (fq_n q) l j))).
  2:{ intros k Hk. rewrite <- (EL k j) by auto. reflexivity. }
  rewrite (sum_ext _ _ (fun k => sum (2 + d) (fun l => LI i k * L l k * along d (Afn s) (fq_n q) l j))).
  2:{ intros k Hk. rewrite <- sum_scal_l. apply sum_ext. intros. ring. }
  rewrite sum_swap. rewrite (sum_single _ i); auto.
  - rewrite sum_scal_r. rewrite (inverse_both (2 + d) (fun i k => L k i) LI) by auto. rewrite Nat.eqb_refl. ring.
  - intros k Hk Nk. rewrite sum_scal_r. rewrite (inverse_both (2 + d) (fun i k => L k i) LI) by auto. destruct (Nat.eqb_spec i k); [congruence|ring].
Qed.
End Run.
