From Coq Require Import Reals Lra.
From Coquelicot Require Import Coquelicot.
From Coq Require Import List Arith Bool Lia FunctionalExtensionality.
From Verif Require Import Base BaseLemmas RBool Sens_Model Sens_Spec Sens_Proofs Sens_Proofs2 Heat_Model Heat_Spec Heat_Proofs.
Import ListNotations.
Open Scope R_scope.

Lemma integral_ext qs g h : (forall q, In q qs -> g q = h q) -> integral qs g = integral qs h.
Proof. intros H. unfold integral. apply total_eq. intros q Hq. now rewrite H. Qed.
Lemma integral_add qs g h : integral qs (fun q => g q + h q) = integral qs g + integral qs h.
Proof. unfold integral. rewrite <- total_add. apply total_eq. intros; ring. Qed.
Lemma integral_mul c qs g : integral qs (fun q => c * g q) = c * integral qs g.
Proof. unfold integral. rewrite <- total_mul. apply total_eq. intros; ring. Qed.
Lemma integral_mulr c qs g : integral qs (fun q => g q * c) = integral qs g * c.
Proof. rewrite (integral_ext qs _ (fun q => c * g q)) by (intros; ring). rewrite integral_mul. ring. Qed.
Lemma integral_sum m qs (g : qpt -> nat -> R) : integral qs (fun q => sum m (g q)) = sum m (fun a => integral qs (fun q => g q a)).
Proof.
  unfold integral. rewrite <- total_sum. apply total_eq. intros q _. now rewrite sum_scal_l.
Qed.
Lemma integral_0 qs g : (forall q, In q qs -> g q = 0) -> integral qs g = 0.
Proof. intros H. unfold integral. apply total_zero. intros q Hq. rewrite H by auto. ring. Qed.

Lemma fold_int (step : vec -> qpt -> vec) (c : nat -> qpt -> R) qs g i :
  (forall g q i, step g q i = g i + jxw q * c i q) -> fold_left step qs g i = g i + integral qs (c i).
Proof. intros H. now rewrite (fold_v step (fun q i => jxw q * c i q)). Qed.
Lemma fold_both (step : vec * matrix -> qpt -> vec * matrix) (c : nat -> qpt -> R) (d : nat -> nat -> qpt -> R) qs : forall fj,
  (forall fj q, (forall a, fst (step fj q) a = fst fj a + jxw q * c a q) /\
                (forall a b, snd (step fj q) a b = snd fj a b + jxw q * d a b q)) ->
  (forall a, fst (fold_left step qs fj) a = fst fj a + integral qs (c a)) /\
  (forall a b, snd (fold_left step qs fj) a b = snd fj a b + integral qs (d a b)).
Proof.
  unfold integral, total, lsum. induction qs as [|q qs IH]; intros fj H; cbn; [split; intros; ring|].
  destruct (IH (step fj q) H) as [I1 I2]. destruct (H fj q) as [H1 H2].
  split; intros; [rewrite I1, H1|rewrite I2, H2]; ring.
Qed.

Section El.
Variables (n_phi dim : nat) (cond : nat -> nat -> field) (capa : field) (sec : option lfun).

Lemma interp_T q v : interp n_phi q v = T_at n_phi v q. Proof. reflexivity. Qed.

(** ** loads: value, tangent and parameter derivative of the outflow *)
Definition out_T (b : bc) (t T : R) (x : nat -> R) : R :=
  match b with
  | Convection h _ => lval h t x
  | Radiation e _ z sb => lval sb t here * lval e t x * 4 * (T + lval z t here) ^ 3
  | _ => 0
  end.
Definition out_p (b : bc) (t T : R) (x : nat -> R) : R :=
  match b with
  | HeatFlux g => l_par g t x
  | Convection h amb => l_par h t x * (T - lval amb t x) + lval h t x * (- l_par amb t x)
  | Radiation e amb z sb => lval sb t here * l_par e t x * ((T + lval z t here) ^ 4 - (lval amb t here + lval z t here) ^ 4)
  | HeatSource g => - l_par g t x
  | _ => 0
  end.
Definition term (s : bool) (b : bc) (t : R) (sol : vec) (a : nat) (q : qpt) : R :=
  phi q a * (thick sec s t q * outflow b t (T_at n_phi sol q) (xyz q)).
Definition term_T (s : bool) (b : bc) (t : R) (sol : vec) (a c : nat) (q : qpt) : R :=
  phi q a * (thick sec s t q * out_T b t (T_at n_phi sol q) (xyz q)) * phi q c.
Definition term_p (s : bool) (b : bc) (t : R) (sol : vec) (a : nat) (q : qpt) : R :=
  phi q a * (thick sec s t q * out_p b t (T_at n_phi sol q) (xyz q) + dthick sec s t q * outflow b t (T_at n_phi sol q) (xyz q)).

Definition gives (b : bc) (s : bool) qs t sol (req : bool) (fj fj' : vec * matrix) : Prop :=
  (forall a, fst fj' a = fst fj a + integral qs (term s b t sol a)) /\
  (forall a c, snd fj' a c = snd fj a c + (if req then integral qs (term_T s b t sol a c) else 0)).
Definition sgives (b : bc) (s : bool) qs t sol (f f' : vec) : Prop :=
  forall a, f' a = f a + integral qs (term_p s b t sol a).

Lemma int_no qs b t sol s a c : (forall T x, out_T b t T x = 0) -> integral qs (term_T s b t sol a c) = 0.
Proof. intros H. apply integral_0. intros q _. unfold term_T. rewrite H. ring. Qed.
Lemma flux_gives s qs g t sol req fj : gives (HeatFlux g) s qs t sol req fj (surface_flux_residual sec s qs g t (fst fj), snd fj).
Proof.
  split; cbn [fst snd].
  - intros a. apply (fold_int _ (term s (HeatFlux g) t sol)). intros. unfold term; cbn. ring.
  - intros a c. destruct req; [rewrite int_no by reflexivity|]; ring.
Qed.
Lemma flux_sgives s qs g t sol f : sgives (HeatFlux g) s qs t sol f (surface_flux_residual_sensitivity sec s qs g t f).
Proof. intros a. apply (fold_int _ (term_p s (HeatFlux g) t sol)). intros. unfold term_p; cbn. ring. Qed.
Lemma source_gives qs g t sol req fj : gives (HeatSource g) true qs t sol req fj (volume_heat_source_residual sec qs g t (fst fj), snd fj).
Proof.
  split; cbn [fst snd].
  - intros a. apply (fold_int _ (term true (HeatSource g) t sol)). intros. unfold term; cbn. ring.
  - intros a c. destruct req; [rewrite int_no by reflexivity|]; ring.
Qed.
Lemma source_sgives qs g t sol f : sgives (HeatSource g) true qs t sol f (volume_heat_source_residual_sensitivity sec qs g t f).
Proof. intros a. apply (fold_int _ (term_p true (HeatSource g) t sol)). intros. unfold term_p; cbn. ring. Qed.
Lemma conv_gives s qs h amb t sol req fj : gives (Convection h amb) s qs t sol req fj
  (surface_convection_residual n_phi sec s qs h amb t sol req fj).
Proof.
  unfold gives, surface_convection_residual.
  destruct (fold_both (fun fj q => let '(f, jac) := fj in
    (fun a => f a + jxw q * phi q a * thick sec s t q * lval h t (xyz q) * (interp n_phi q sol - lval amb t (xyz q)),
     if req then add_mass (jxw q * thick sec s t q * lval h t (xyz q)) q jac else jac))
    (term s (Convection h amb) t sol) (fun a c q => if req then term_T s (Convection h amb) t sol a c q else 0) qs fj) as [F J].
  - intros [f jac] q. cbn [fst snd]. split; intros.
    + unfold term; cbn. rewrite interp_T. ring.
    + destruct req; [unfold add_mass, term_T; cbn; ring|ring].
  - split; [exact F|]. intros a c. rewrite J. destruct req; [reflexivity|]. rewrite integral_0; auto.
Qed.
Lemma conv_sgives s qs h amb t sol f : sgives (Convection h amb) s qs t sol f (surface_convection_residual_sensitivity n_phi sec s qs h amb t sol f).
Proof. intros a. apply (fold_int _ (term_p s (Convection h amb) t sol)). intros. unfold term_p; cbn. rewrite interp_T. ring. Qed.
Lemma rad_gives s qs e amb z sb t sol req fj : gives (Radiation e amb z sb) s qs t sol req fj
  (surface_radiation_residual n_phi sec s qs e amb z sb t sol req fj).
Proof.
  unfold gives, surface_radiation_residual.
  destruct (fold_both (fun fj q => let '(f, jac) := fj in
    (fun a => f a + jxw q * phi q a * lval sb t here * lval e t (xyz q) * thick sec s t q *
        ((interp n_phi q sol + lval z t here) ^ 4 - (lval amb t here + lval z t here) ^ 4),
     if req then add_mass (jxw q * lval sb t here * lval e t (xyz q) * thick sec s t q * 4 * (interp n_phi q sol + lval z t here) ^ 3) q jac else jac))
    (term s (Radiation e amb z sb) t sol) (fun a c q => if req then term_T s (Radiation e amb z sb) t sol a c q else 0) qs fj) as [F J].
  - intros [f jac] q. cbn [fst snd]. split; intros.
    + unfold term; cbn -[pow]. rewrite interp_T. ring.
    + destruct req; [unfold add_mass, term_T; cbn -[pow]; rewrite interp_T; ring|ring].
  - split; [exact F|]. intros a c. rewrite J. destruct req; [reflexivity|]. rewrite integral_0; auto.
Qed.
Lemma rad_sgives s qs e amb z sb t sol f : sgives (Radiation e amb z sb) s qs t sol f (surface_radiation_residual_sensitivity n_phi sec s qs e amb z sb t sol f).
Proof. intros a. apply (fold_int _ (term_p s (Radiation e amb z sb) t sol)). intros. unfold term_p; cbn -[pow]. rewrite interp_T. ring. Qed.

Lemma dir_gives s qs t sol req fj : gives Dirichlet s qs t sol req fj fj.
Proof.
  split; intros.
  - rewrite integral_0; [ring|]. intros. unfold term; cbn; ring.
  - destruct req; [rewrite int_no by reflexivity|]; ring.
Qed.
Lemma dir_sgives s qs t sol f : sgives Dirichlet s qs t sol f f.
Proof. intros a. rewrite integral_0; [ring|]. intros. unfold term_p; cbn; ring. Qed.

Lemma side_gives qs t sol req b fj : side_ok b = true -> exists fj', side_load n_phi sec qs t sol req b fj = Ok fj' /\
  gives b true qs t sol req fj fj'.
Proof.
  destruct b; cbn; intros H; try discriminate; eexists; (split; [reflexivity|]).
  - apply flux_gives. - apply conv_gives. - apply rad_gives. - apply dir_gives.
Qed.
Lemma side_sgives qs t sol b f : side_ok b = true -> exists f', side_load_sens n_phi sec qs t sol b f = Ok f' /\
  sgives b true qs t sol f f'.
Proof.
  destruct b; cbn; intros H; try discriminate; eexists; (split; [reflexivity|]).
  - apply flux_sgives. - apply conv_sgives. - apply rad_sgives. - apply dir_sgives.
Qed.
Lemma volume_gives qs t sol req b fj : volume_ok b = true -> exists fj', volume_load n_phi sec qs t sol req b fj = Ok fj' /\
  gives b (is_source b) qs t sol req fj fj'.
Proof.
  destruct b; cbn; intros H; try discriminate; eexists; (split; [reflexivity|]).
  - apply flux_gives. - apply conv_gives. - apply rad_gives. - apply source_gives.
Qed.
Lemma volume_sgives qs t sol b f : volume_ok b = true -> exists f', volume_load_sens n_phi sec qs t sol b f = Ok f' /\
  sgives b (is_source b) qs t sol f f'.
Proof.
  destruct b; cbn; intros H; try discriminate; eexists; (split; [reflexivity|]).
  - apply flux_sgives. - apply conv_sgives. - apply rad_sgives. - apply source_sgives.
Qed.

Lemma each_gives {A} (step : A -> vec * matrix -> outcome (vec * matrix)) (c : A -> nat -> R) (d : A -> nat -> nat -> R) l :
  (forall x fj, In x l -> exists fj', step x fj = Ok fj' /\ (forall a, fst fj' a = fst fj a + c x a) /\
     (forall a b, snd fj' a b = snd fj a b + d x a b)) ->
  forall fj, exists fj', each step l fj = Ok fj' /\ (forall a, fst fj' a = fst fj a + total (fun x => c x a) l) /\
     (forall a b, snd fj' a b = snd fj a b + total (fun x => d x a b) l).
Proof.
  unfold total, lsum. induction l as [|x l IH]; intros H fj; cbn.
  - exists fj. split; [reflexivity|]. split; intros; ring.
  - destruct (H x fj (or_introl eq_refl)) as (fj1 & E & F & G). rewrite E. cbn [bind].
    destruct (IH (fun y fj Hy => H y fj (or_intror Hy)) fj1) as (fj2 & E2 & F2 & G2).
    exists fj2. split; [exact E2|]. split; intros; [rewrite F2, F|rewrite G2, G]; ring.
Qed.
Lemma each_sgives {A} (step : A -> vec -> outcome vec) (c : A -> nat -> R) l :
  (forall x f, In x l -> exists f', step x f = Ok f' /\ (forall a, f' a = f a + c x a)) ->
  forall f, exists f', each step l f = Ok f' /\ (forall a, f' a = f a + total (fun x => c x a) l).
Proof.
  unfold total, lsum. induction l as [|x l IH]; intros H f; cbn.
  - exists f. split; [reflexivity|]. intros; ring.
  - destruct (H x f (or_introl eq_refl)) as (f1 & E & F). rewrite E. cbn [bind].
    destruct (IH (fun y f Hy => H y f (or_intror Hy)) f1) as (f2 & E2 & F2).
    exists f2. split; [exact E2|]. intros; rewrite F2, F; ring.
Qed.

Lemma side_term_eq t sol a b q : term true b t sol a q = side_term n_phi sec t sol a b q.
Proof. reflexivity. Qed.
Lemma volume_term_eq t sol a b q : term (is_source b) b t sol a q = volume_term n_phi sec t sol a b q.
Proof. unfold term, volume_term, thick, section_at. destruct (is_source b); reflexivity. Qed.

(** the element *)
Variable act : bool.
Definition jac_of (h : hload) (t : R) (sol : vec) (a c : nat) : R :=
  integral (points h) (cond_tan n_phi dim cond act t sol a c)
  + total (fun s => total (fun b => integral (fst s) (term_T true b t sol a c)) (snd s)) (sides h)
  + total (fun b => integral (points h) (term_T (is_source b) b t sol a c)) (volume h).
Definition par_of (h : hload) (t : R) (sol : vec) (a : nat) : R :=
  integral (points h) (cond_par n_phi dim cond act t sol a)
  + total (fun s => total (fun b => integral (fst s) (term_p true b t sol a)) (snd s)) (sides h)
  + total (fun b => integral (points h) (term_p (is_source b) b t sol a)) (volume h).

Lemma elem_gives h t sol req : supported h ->
  exists f jac, elem_calculations n_phi dim cond sec act h t sol req = Ok (f, jac) /\
    (forall a, f a = weak_form n_phi dim cond sec act h t sol a) /\
    (forall a b, jac a b = if req then jac_of h t sol a b else 0).
Proof.
  intros [S1 S2]. unfold elem_calculations.
  set (fj0 := internal_residual n_phi dim cond act (points h) t sol req (zero, mzero)).
  assert (F0 : forall a, fst fj0 a = integral (points h) (conduction n_phi dim cond act t sol a)).
  { intros a. unfold fj0. rewrite internal_f. unfold zero. ring. }
  assert (J0 : forall a b, snd fj0 a b = if req then integral (points h) (cond_tan n_phi dim cond act t sol a b) else 0).
  { intros a b. unfold fj0. destruct req; [rewrite internal_jac|rewrite internal_jac_not]; unfold mzero; ring. }
  destruct (each_gives (fun s fj => each (side_load n_phi sec (fst s) t sol req) (snd s) fj)
    (fun s a => total (fun b => integral (fst s) (term true b t sol a)) (snd s))
    (fun s a c => total (fun b => if req then integral (fst s) (term_T true b t sol a c) else 0) (snd s)) (sides h)) with (fj := fj0) as (fj1 & E1 & F1 & J1).
  { intros s fj Hs. apply (each_gives _ (fun b a => integral (fst s) (term true b t sol a))
      (fun b a c => if req then integral (fst s) (term_T true b t sol a c) else 0)).
    intros b fj' Hb. apply side_gives. eauto. }
  unfold side_external_residual. rewrite E1. cbn [bind]. unfold volume_external_residual.
  destruct (each_gives (volume_load n_phi sec (points h) t sol req)
    (fun b a => integral (points h) (term (is_source b) b t sol a))
    (fun b a c => if req then integral (points h) (term_T (is_source b) b t sol a c) else 0) (volume h)) with (fj := fj1) as ([f jac] & E2 & F2 & J2).
  { intros b fj' Hb. apply volume_gives. eauto. }
  exists f, jac. split; [exact E2|]. cbn [fst snd] in *. split.
  - intros a. rewrite F2, F1, F0. unfold weak_form. apply (f_equal2 Rplus); [reflexivity|]. apply total_eq. intros b _. apply integral_ext. intros q _. apply volume_term_eq.
  - intros a b. rewrite J2, J1, J0. unfold jac_of. destruct req; [reflexivity|].
    rewrite (total_zero (fun _ : bc => 0) (volume h)) by auto. rewrite total_zero; [ring|]. intros; now apply total_zero.
Qed.
Lemma elem_sgives h t sol : supported h ->
  exists f, elem_sensitivity_calculations n_phi dim cond sec act h t sol = Ok f /\ (forall a, f a = par_of h t sol a).
Proof.
  intros [S1 S2]. unfold elem_sensitivity_calculations.
  set (f0 := internal_residual_sensitivity n_phi dim cond act (points h) t sol zero).
  assert (F0 : forall a, f0 a = integral (points h) (cond_par n_phi dim cond act t sol a)).
  { intros a. unfold f0. rewrite internal_sens. unfold zero. ring. }
  destruct (each_sgives (fun s f => each (side_load_sens n_phi sec (fst s) t sol) (snd s) f)
    (fun s a => total (fun b => integral (fst s) (term_p true b t sol a)) (snd s)) (sides h)) with (f := f0) as (f1 & E1 & F1).
  { intros s f Hs. apply (each_sgives _ (fun b a => integral (fst s) (term_p true b t sol a))).
    intros b f' Hb. apply side_sgives. eauto. }
  rewrite E1. cbn [bind].
  destruct (each_sgives (volume_load_sens n_phi sec (points h) t sol)
    (fun b a => integral (points h) (term_p (is_source b) b t sol a)) (volume h)) with (f := f1) as (f2 & E2 & F2).
  { intros b f' Hb. apply volume_sgives. eauto. }
  exists f2. split; [exact E2|]. intros a. rewrite F2, F1, F0. reflexivity.
Qed.
Lemma each_fault {A B} (step : A -> B -> outcome B) l s : (forall x s, step x s <> Fault OutOfBounds) ->
  (exists x, In x l /\ forall s, exists f, step x s = Fault f) -> exists f, each step l s = Fault f.
Proof.
  intros _ (x & Hx & F). revert s. induction l as [|y l IH]; intros s; [destruct Hx|]. cbn.
  destruct Hx as [->|Hx].
  - destruct (F s) as (f & ->). eexists; reflexivity.
  - destruct (step y s); cbn [bind]; [now apply IH|eexists; reflexivity].
Qed.

(** ** differentiation of the loads *)
Lemma der_thick s t0 q : smooth_section sec t0 -> is_derive (fun t => thick sec s t q) t0 (dthick sec s t0 q).
Proof.
  intros H. unfold thick, dthick. destruct s; [|apply der_const]. destruct sec; [apply H|apply der_const].
Qed.
Lemma der_out b t0 (T : R -> R) dT x : smooth_bc b t0 -> radiation_fixed b -> is_derive T t0 dT ->
  is_derive (fun t => outflow b t (T t) x) t0 (out_T b t0 (T t0) x * dT + out_p b t0 (T t0) x).
Proof.
  intros S RF H. destruct b; cbn in *.
  - apply (der_ext (fun t => lval q t x) _ t0 (l_par q t0 x)); [auto|ring|apply S].
  - destruct S as [S1 S2].
    apply (der_ext (fun t => lval h t x * (T t - lval T_amb t x)) _ t0 (l_par h t0 x * (T t0 - lval T_amb t0 x) + lval h t0 x * (dT - l_par T_amb t0 x)));
      [auto|ring|].
    apply (der_mult (fun t => lval h t x) (fun t => T t - lval T_amb t x)); [apply S1|]. apply der_minus; [exact H|apply S2].
  - destruct S as (S1 & _).
    set (sb := lval sb_const t0 here) in *. set (am := lval T_amb t0 here). set (zr := lval T_ref_zero t0 here).
    apply (der_ext (fun t => (sb * lval emissivity t x) * ((T t + zr) ^ 4 - (am + zr) ^ 4)) _ t0
      (sb * l_par emissivity t0 x * ((T t0 + zr) ^ 4 - (am + zr) ^ 4)
       + (sb * lval emissivity t0 x) * (4 * dT * (T t0 + zr) ^ 3 - 0))).
    + intros t. destruct (RF t t0) as (-> & -> & ->). reflexivity.
    + ring.
    + apply (der_mult (fun t => sb * lval emissivity t x) (fun t => (T t + zr) ^ 4 - (am + zr) ^ 4)).
      * apply der_scal. apply S1.
      * apply (der_minus (fun t => (T t + zr) ^ 4) (fun _ => (am + zr) ^ 4)); [|apply der_const].
        apply (der_ext (fun t => (T t + zr) ^ 4) _ t0 (INR 4 * dT * (T t0 + zr) ^ (pred 4))); [auto|cbn; ring|].
        apply (der_pow (fun t => T t + zr)).
        apply (der_ext (fun t => T t + zr) _ t0 (dT + 0)); [auto|ring|]. apply (der_plus T (fun _ => zr)); [exact H|apply der_const].
  - apply (der_ext (fun t => - lval q t x) _ t0 (- l_par q t0 x)); [auto|ring|]. apply der_opp. apply S.
  - apply (der_ext (fun _ => 0) _ t0 0); [auto|ring|apply der_const].
  - apply (der_ext (fun _ => 0) _ t0 0); [auto|ring|apply der_const].
Qed.
Lemma der_term s b t0 T dT a q : smooth_section sec t0 -> smooth_bc b t0 -> radiation_fixed b -> history n_phi t0 T dT ->
  is_derive (fun t => term s b t (T t) a q) t0
    (sum n_phi (fun c => term_T s b t0 (T t0) a c q * dT c) + term_p s b t0 (T t0) a q).
Proof.
  intros SS SB RF H. unfold term.
  pose proof (der_out b t0 (fun t => T_at n_phi (T t) q) (T_at n_phi dT q) (xyz q) SB RF (der_T n_phi t0 T dT q H)) as DO.
  pose proof (der_thick s t0 q SS) as DT.
  pose proof (der_scal (phi q a) _ _ _ (der_mult _ _ _ _ _ DT DO)) as D. cbv beta in D.
  refine (der_ext _ _ _ _ _ (fun t => eq_refl) _ D).
  unfold term_T, term_p. rewrite sum_ext with (g := fun c => phi q a * (thick sec s t0 q * out_T b t0 (T_at n_phi (T t0) q) (xyz q)) * (phi q c * dT c)) by (intros; ring).
  rewrite sum_scal_l. fold (T_at n_phi dT q). ring.
Qed.
Lemma int_tan qs (tan : nat -> qpt -> R) (par : qpt -> R) (dT : vec) :
  integral qs (fun q => sum n_phi (fun c => tan c q * dT c) + par q) =
  sum n_phi (fun c => integral qs (tan c) * dT c) + integral qs par.
Proof.
  rewrite integral_add. f_equal. rewrite integral_sum. apply sum_ext. intros c _. apply integral_mulr.
Qed.
Lemma tot_tan {A} (l : list A) (tan : A -> nat -> R) (par : A -> R) (dT : vec) :
  total (fun x => sum n_phi (fun c => tan x c * dT c) + par x) l =
  sum n_phi (fun c => total (fun x => tan x c) l * dT c) + total par l.
Proof.
  rewrite total_add. f_equal. rewrite total_sum. apply sum_ext. intros c _.
  rewrite (total_eq _ (fun x => dT c * tan x c)) by (intros; ring). rewrite total_mul. ring.
Qed.
Lemma der_weak h t0 T dT a :
  (forall i j, (i < dim)%nat -> (j < dim)%nat -> smooth_field (cond i j) t0) -> smooth_section sec t0 ->
  all_loads h (fun b => smooth_bc b t0) -> all_loads h radiation_fixed -> history n_phi t0 T dT ->
  is_derive (fun t => weak_form n_phi dim cond sec act h t (T t) a) t0
    (sum n_phi (fun c => jac_of h t0 (T t0) a c * dT c) + par_of h t0 (T t0) a).
Proof.
  intros SC SS [SB1 SB2] [RF1 RF2] H. unfold weak_form.
  assert (D1 : is_derive (fun t => integral (points h) (conduction n_phi dim cond act t (T t) a)) t0
     (sum n_phi (fun c => integral (points h) (cond_tan n_phi dim cond act t0 (T t0) a c) * dT c)
       + integral (points h) (cond_par n_phi dim cond act t0 (T t0) a))).
  { rewrite <- int_tan. apply (der_integral (points h) (fun t q => conduction n_phi dim cond act t (T t) a q)).
    intros q _. now apply der_conduction. }
  assert (D2 : is_derive (fun t => total (fun s => total (fun b => integral (fst s) (side_term n_phi sec t (T t) a b)) (snd s)) (sides h)) t0
     (sum n_phi (fun c => total (fun s => total (fun b => integral (fst s) (term_T true b t0 (T t0) a c)) (snd s)) (sides h) * dT c)
      + total (fun s => total (fun b => integral (fst s) (term_p true b t0 (T t0) a)) (snd s)) (sides h))).
  { rewrite <- tot_tan.
    apply (der_total (sides h) (fun s t => total (fun b => integral (fst s) (side_term n_phi sec t (T t) a b)) (snd s))).
    intros s Hs. rewrite <- tot_tan.
    apply (der_total (snd s) (fun b t => integral (fst s) (side_term n_phi sec t (T t) a b))).
    intros b Hb. rewrite <- int_tan. apply (der_integral (fst s) (fun t q => side_term n_phi sec t (T t) a b q)).
    intros q _. apply (der_term true b t0 T dT a q); eauto. }
  assert (D3 : is_derive (fun t => total (fun b => integral (points h) (volume_term n_phi sec t (T t) a b)) (volume h)) t0
     (sum n_phi (fun c => total (fun b => integral (points h) (term_T (is_source b) b t0 (T t0) a c)) (volume h) * dT c)
      + total (fun b => integral (points h) (term_p (is_source b) b t0 (T t0) a)) (volume h))).
  { rewrite <- tot_tan. apply (der_total (volume h) (fun b t => integral (points h) (volume_term n_phi sec t (T t) a b))).
    intros b Hb. rewrite <- int_tan. apply (der_integral (points h) (fun t q => volume_term n_phi sec t (T t) a b q)).
    intros q _. apply (der_ext (fun t => term (is_source b) b t (T t) a q) _ t0
      (sum n_phi (fun c => term_T (is_source b) b t0 (T t0) a c q * dT c) + term_p (is_source b) b t0 (T t0) a q));
      [intros; symmetry; apply volume_term_eq|reflexivity|]. apply der_term; eauto. }
  pose proof (der_plus _ _ _ _ _ (der_plus _ _ _ _ _ D1 D2) D3) as D. cbv beta in D.
  refine (der_ext _ _ _ _ _ (fun t => eq_refl) _ D).
  unfold jac_of, par_of. rewrite (sum_ext n_phi _ (fun c =>
     (integral (points h) (cond_tan n_phi dim cond act t0 (T t0) a c) * dT c +
      total (fun s => total (fun b => integral (fst s) (term_T true b t0 (T t0) a c)) (snd s)) (sides h) * dT c) +
      total (fun b => integral (points h) (term_T (is_source b) b t0 (T t0) a c)) (volume h) * dT c)) by (intros; ring).
  rewrite !sum_plus. ring.
Qed.
End El.
