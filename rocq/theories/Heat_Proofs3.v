From Coq Require Import Reals Lra.
From Coquelicot Require Import Coquelicot.
From Coq Require Import List Arith Bool Lia FunctionalExtensionality.
From Verif Require Import Base BaseLemmas RBool Sens_Model Sens_Spec Sens_Proofs Sens_Proofs2 Heat_Model Heat_Spec Heat_Proofs Heat_Proofs2.
Import ListNotations.
Open Scope R_scope.

Section El.
Variables (n_phi dim : nat) (cond : nat -> nat -> field) (capa : field) (sec : option lfun) (lumped act : bool).

(** ** storage *)
Definition cap_at (t : R) (sol : vec) (q : qpt) : R := val capa t (state_at act n_phi sol q) (xyz q).
Definition dcap_at (t : R) (sol : vec) (q : qpt) : R := d_temp capa t (state_at act n_phi sol q) (xyz q).
Definition pcap_at (t : R) (sol : vec) (q : qpt) : R := d_par capa t (state_at act n_phi sol q) (xyz q).
Lemma velocity_fold t sol vel req qs : forall lf jxd jac,
  let '(lf', jxd', jac') := fold_left (velocity_qp n_phi capa lumped act t sol vel req) qs (lf, jxd, jac) in
  (forall a, lf' a = lf a + integral qs (fun q => phi q a * (cap_at t sol q * T_at n_phi vel q))) /\
  (forall a b, jxd' a b = jxd a b + (if req || lumped then integral qs (fun q => cap_at t sol q * (phi q a * phi q b)) else 0)) /\
  (forall a b, jac' a b = jac a b + (if (req || lumped) && act then integral qs (fun q => T_at n_phi vel q * dcap_at t sol q * (phi q a * phi q b)) else 0)).
Proof.
  unfold integral, total, lsum. induction qs as [|q qs IH]; intros lf jxd jac; cbn [fold_left map fold_right].
  - split; [|split]; intros; destruct (req || lumped), act; cbn; ring.
  - unfold velocity_qp at 2.
    change (val capa t (at_temp n_phi act q sol) (xyz q)) with (cap_at t sol q).
    change (d_temp capa t (at_temp n_phi act q sol) (xyz q)) with (dcap_at t sol q).
    rewrite interp_T.
    destruct (req || lumped) eqn:RL.
    + set (lf1 := fun a => _). set (jac1 := if act && _ then _ else _).
      specialize (IH lf1 (add_mass (jxw q * cap_at t sol q) q jxd) jac1).
      destruct (fold_left _ qs _) as [[lf' jxd'] jac'] eqn:E. destruct IH as (I1 & I2 & I3).
      split; [|split]; intros.
      * rewrite I1. unfold lf1. ring.
      * rewrite I2. unfold add_mass. ring.
      * rewrite I3. unfold jac1. destruct act; cbn [andb]; [|ring].
        destruct (reqb (dcap_at t sol q) 0) eqn:Z; cbn [negb]; [apply reqb_true in Z; rewrite Z; ring|unfold add_mass; ring].
    + set (lf1 := fun a => _). specialize (IH lf1 jxd jac).
      destruct (fold_left _ qs _) as [[lf' jxd'] jac'] eqn:E. destruct IH as (I1 & I2 & I3).
      split; [|split]; intros; [rewrite I1; unfold lf1; ring|rewrite I2; ring|rewrite I3; cbn; ring].
Qed.
Lemma times_diag m v a : (a < n_phi)%nat -> times n_phi (diagonalize n_phi m) v a = sum n_phi (m a) * v a.
Proof.
  intros H. unfold times. rewrite (sum_single n_phi a); auto.
  - unfold diagonalize. rewrite Nat.eqb_refl. reflexivity.
  - intros k _ N. unfold diagonalize. destruct (Nat.eqb_spec a k); [congruence|ring].
Qed.
Lemma velocity_gives qs t sol vel req : exists f jxd jac,
  velocity_residual n_phi capa lumped act qs t sol vel req zero mzero mzero = (f, jxd, jac) /\
  (forall a, (a < n_phi)%nat -> f a = integral qs (storage n_phi capa act lumped t sol vel a)) /\
  (forall a b, (a < n_phi)%nat -> jxd a b = if req then
      (if lumped then if (a =? b)%nat then integral qs (fun q => cap_at t sol q * (phi q a * sum n_phi (phi q))) else 0
       else integral qs (fun q => cap_at t sol q * (phi q a * phi q b))) else 0) /\
  (forall a b, jac a b = if req && act then integral qs (fun q => T_at n_phi vel q * dcap_at t sol q * (phi q a * phi q b)) else 0).
Proof.
  unfold velocity_residual. pose proof (velocity_fold t sol vel req qs zero mzero mzero) as V.
  destruct (fold_left _ qs _) as [[lf jxd] jac]. destruct V as (V1 & V2 & V3).
  assert (RS : lumped = true -> forall a, sum n_phi (jxd a) = integral qs (fun q => cap_at t sol q * (phi q a * sum n_phi (phi q)))).
  { intros L a. rewrite (sum_ext n_phi (jxd a) (fun b => integral qs (fun q => cap_at t sol q * (phi q a * phi q b)))).
    - rewrite <- integral_sum. apply integral_ext. intros q _. rewrite <- !sum_scal_l. reflexivity.
    - intros b _. rewrite V2, L, orb_true_r. unfold mzero. ring. }
  destruct lumped.
  - assert (F : forall a, (a < n_phi)%nat -> zero a + times n_phi (diagonalize n_phi jxd) vel a = integral qs (storage n_phi capa act true t sol vel a)).
    { intros a Ha. rewrite times_diag by auto. rewrite RS by auto. rewrite <- integral_mulr. unfold zero. rewrite Rplus_0_l.
      apply integral_ext. intros q _. unfold storage, cap_at. ring. }
    destruct req; eexists _, _, _; (split; [reflexivity|]); (split; [exact F|]); (split; [intros a b Ha|intros a b]).
    + unfold diagonalize. destruct (a =? b)%nat; [now apply RS|reflexivity].
    + rewrite V3. cbn. unfold mzero. ring.
    + reflexivity.
    + reflexivity.
  - eexists _, _, _. split; [reflexivity|]. split; [|split].
    + intros a Ha. rewrite V1. unfold zero. rewrite !Rplus_0_l. apply integral_ext. intros q _. reflexivity.
    + intros a b Ha. rewrite V2, orb_false_r. unfold mzero. destruct req; ring.
    + intros a b. rewrite V3, orb_false_r. unfold mzero. destruct (req && act); ring.
Qed.
Lemma sens_fold (w c : qpt -> R) vel qs : forall lf m,
  let '(lf', m') := fold_left (fun s q => velocity_sens_qp n_phi lumped (w q) (c q) vel s q) qs (lf, m) in
  (forall a, lf' a = lf a + total (fun q => w q * (c q * (phi q a * T_at n_phi vel q))) qs) /\
  (lumped = true -> forall a b, m' a b = m a b + total (fun q => w q * (c q * (phi q a * phi q b))) qs).
Proof.
  unfold total, lsum. induction qs as [|q qs IH]; intros lf m; cbn [fold_left map fold_right].
  - split; intros; ring.
  - unfold velocity_sens_qp at 2. rewrite interp_T. match goal with |- context [fold_left _ qs (?x, ?y)] => set (lf1 := x); set (m1 := y) end.
    specialize (IH lf1 m1). destruct (fold_left _ qs _) as [lf' m'] eqn:E. destruct IH as (I1 & I2).
    split.
    + intros a. rewrite I1. unfold lf1. ring.
    + intros L a b. rewrite I2 by auto. unfold m1. rewrite L. unfold add_mass. ring.
Qed.
Lemma finish_gives (w c : qpt -> R) vel qs f a : (a < n_phi)%nat ->
  finish_sens n_phi lumped (fold_left (fun s q => velocity_sens_qp n_phi lumped (w q) (c q) vel s q) qs (zero, mzero)) vel f a =
  f a + total (fun q => w q * (phi q a * (c q * (if lumped then sum n_phi (phi q) * vel a else T_at n_phi vel q)))) qs.
Proof.
  intros Ha. pose proof (sens_fold w c vel qs zero mzero) as V. destruct (fold_left _ qs _) as [lf m]. destruct V as (V1 & V2).
  unfold finish_sens. destruct lumped.
  - rewrite times_diag by auto. rewrite (sum_ext n_phi (m a) (fun b => total (fun q => w q * (c q * (phi q a * phi q b))) qs))
      by (intros; rewrite V2 by auto; unfold mzero; ring).
    rewrite <- total_sum. rewrite Rmult_comm, <- total_mul. f_equal. apply total_eq. intros q _. rewrite <- sum_scal_l.
    rewrite (sum_ext n_phi _ (fun b => vel a * w q * c q * phi q a * phi q b)) by (intros; ring). rewrite sum_scal_l. ring.
  - rewrite V1. unfold zero. rewrite Rplus_0_l. f_equal. apply total_eq. intros; ring.
Qed.
Lemma velocity_sgives qs t sol vel f a : (a < n_phi)%nat ->
  velocity_residual_sensitivity n_phi capa lumped act qs t sol vel f a =
  f a + integral qs (fun q => phi q a * (pcap_at t sol q * (if lumped then sum n_phi (phi q) * vel a else T_at n_phi vel q))).
Proof. intros Ha. apply (finish_gives jxw (pcap_at t sol)). exact Ha. Qed.

Lemma der_storage t0 T dT V dV a q : smooth_field capa t0 -> history n_phi t0 T dT -> history n_phi t0 V dV -> (a < n_phi)%nat ->
  is_derive (fun t => storage n_phi capa act lumped t (T t) (V t) a q) t0
   (phi q a * (((if act then dcap_at t0 (T t0) q * T_at n_phi dT q else 0) + pcap_at t0 (T t0) q)
        * (if lumped then sum n_phi (phi q) * V t0 a else T_at n_phi (V t0) q)
      + cap_at t0 (T t0) q * (if lumped then sum n_phi (phi q) * dV a else T_at n_phi dV q))).
Proof.
  intros S HT HV Ha. unfold storage. apply der_scal.
  apply (der_mult (fun t => val capa t (state_at act n_phi (T t) q) (xyz q))
    (fun t => if lumped then sum n_phi (phi q) * V t a else T_at n_phi (V t) q)).
  - apply (der_field n_phi capa act t0 T dT q S HT).
  - destruct lumped; [apply der_scal; auto|now apply der_T].
Qed.

(** ** boundary velocity *)
Definition vn (bv : (nat -> R) -> nat -> R) (q : qpt) : R := sum dim (fun i => bv (xyz q) i * nrm q i).
Lemma fold_R {A} (c : A -> R) (l : list A) : forall s, fold_left (fun s x => s + c x) l s = s + total c l.
Proof. unfold total, lsum. induction l as [|x l IH]; intros s; cbn; [ring|]. rewrite IH. ring. Qed.
Lemma jxw_vn_eq bv q : jxw_vn dim bv q = jxw q * vn bv q.
Proof.
  unfold jxw_vn. rewrite (fold_R (fun i => bv (xyz q) i * nrm q i)). rewrite total_seq, Rplus_0_l. reflexivity.
Qed.
Lemma internal_bv side bv t sol f a : internal_residual_boundary_velocity n_phi dim cond act side bv t sol f a =
  f a + integral side (fun q => vn bv q * conduction n_phi dim cond act t sol a q).
Proof.
  unfold internal_residual_boundary_velocity. apply (fold_int _ (fun a q => vn bv q * conduction n_phi dim cond act t sol a q)).
  intros g q i. rewrite cond_flux, jxw_vn_eq. ring.
Qed.
Lemma load_bv side bv t sol b f : volume_ok b = true -> exists f', volume_load_bv n_phi dim sec side bv t sol b f = Ok f' /\
  forall a, f' a = f a + integral side (fun q => vn bv q * volume_term n_phi sec t sol a b q).
Proof.
  destruct b; cbn [volume_ok]; intros H; try discriminate; eexists; (split; [reflexivity|]); intros a;
  match goal with |- _ = _ + integral _ (fun q => vn _ q * volume_term _ _ _ _ _ ?b q) =>
    apply (fold_int _ (fun a q => vn bv q * volume_term n_phi sec t sol a b q)) end;
  intros g q' i; rewrite jxw_vn_eq; unfold volume_term, thick, section_at; cbn -[pow]; rewrite ?interp_T; destruct sec; ring.
Qed.
End El.

(** ** balance and definiteness *)
Lemma sum_conduction n dim cond act t T q : partition n dim q -> sum n (fun a => conduction n dim cond act t T a q) = 0.
Proof.
  intros [_ P]. unfold conduction. rewrite sum_swap. apply sum_0. intros i Hi. rewrite sum_swap. apply sum_0. intros j _.
  rewrite sum_scal_r. rewrite (P i Hi). ring.
Qed.
Lemma sum_integral n qs g : sum n (fun a => integral qs (g a)) = integral qs (fun q => sum n (fun a => g a q)).
Proof. rewrite integral_sum. reflexivity. Qed.
Lemma sum_total {A} n (l : list A) (g : nat -> A -> R) : sum n (fun a => total (g a) l) = total (fun x => sum n (fun a => g a x)) l.
Proof. rewrite total_sum. reflexivity. Qed.
Lemma integral_nonneg qs g : (forall q, In q qs -> 0 <= jxw q /\ 0 <= g q) -> 0 <= integral qs g.
Proof.
  intros H. unfold integral, total. apply lsum_map_nonneg. intros q Hq. destruct (H q Hq). now apply Rmult_le_pos.
Qed.
Lemma total_nonneg {A} (f : A -> R) l : (forall x, In x l -> 0 <= f x) -> 0 <= total f l.
Proof. intros. now apply lsum_map_nonneg. Qed.

Lemma each_gen_fault {A B} (step : A -> B -> outcome B) l : forall s,
  (exists x, In x l /\ forall s, exists f, step x s = Fault f) -> exists f, each step l s = Fault f.
Proof.
  induction l as [|y l IH]; intros s (x & Hx & F); [destruct Hx|]. cbn.
  destruct Hx as [->|Hx].
  - destruct (F s) as (f & ->). eexists; reflexivity.
  - destruct (step y s); cbn [bind]; [apply IH; eauto|eexists; reflexivity].
Qed.

Lemma integral_total {A} qs (g : qpt -> A -> R) (l : list A) :
  integral qs (fun q => total (g q) l) = total (fun x => integral qs (fun q => g q x)) l.
Proof.
  induction l as [|x l IH].
  - apply integral_0. reflexivity.
  - change (total (fun x => integral qs (fun q => g q x)) (x :: l)) with (integral qs (fun q => g q x) + total (fun x => integral qs (fun q => g q x)) l).
    rewrite <- IH, <- integral_add. reflexivity.
Qed.
