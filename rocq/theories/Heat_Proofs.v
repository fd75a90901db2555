From Coq Require Import Reals Lra.
From Coquelicot Require Import Coquelicot.
From Coq Require Import List Arith Bool Lia FunctionalExtensionality.
From Verif Require Import Base BaseLemmas RBool Sens_Model Sens_Spec Sens_Proofs Sens_Proofs2 Heat_Model Heat_Spec.
Import ListNotations.
Open Scope R_scope.

(** ** additive loops *)
Lemma fold_v {A} (step : vec -> A -> vec) (c : A -> nat -> R) l : forall g i,
  (forall g e i, step g e i = g i + c e i) ->
  fold_left step l g i = g i + total (fun e => c e i) l.
Proof.
  induction l as [|e l IH]; intros g i H; unfold total, lsum in *; cbn; [ring|]. rewrite IH, H by auto. ring.
Qed.
Lemma fold_m {A} (step : matrix -> A -> matrix) (c : A -> nat -> nat -> R) l : forall g i j,
  (forall g e i j, step g e i j = g i j + c e i j) ->
  fold_left step l g i j = g i j + total (fun e => c e i j) l.
Proof.
  induction l as [|e l IH]; intros g i j H; unfold total, lsum in *; cbn; [ring|]. rewrite IH, H by auto. ring.
Qed.
Lemma fold_pair {A B C} (s1 : A -> C -> A) (s2 : B -> C -> B) l : forall a b,
  fold_left (fun (p : A * B) x => (s1 (fst p) x, s2 (snd p) x)) l (a, b) = (fold_left s1 l a, fold_left s2 l b).
Proof. induction l; intros; cbn; auto. Qed.
Lemma total_seq (f : nat -> R) m : total f (seq 0 m) = sum m f.
Proof.
  assert (G : forall c s, total f (seq s c) = sum c (fun k => f (s + k)%nat)).
  { induction c as [|k IH]; intros s; [reflexivity|].
    rewrite (seq_S k s). unfold total in *. rewrite map_app, lsum_app, IH. cbn. ring. }
  rewrite G. reflexivity.
Qed.
Lemma total_add {A} (f g : A -> R) l : total (fun x => f x + g x) l = total f l + total g l.
Proof. unfold total. apply lsum_map_plus. Qed.
Lemma total_mul {A} c (f : A -> R) l : total (fun x => c * f x) l = c * total f l.
Proof. unfold total. apply lsum_map_scal. Qed.
Lemma total_eq {A} (f g : A -> R) l : (forall x, In x l -> f x = g x) -> total f l = total g l.
Proof. intros H. unfold total. f_equal. now apply map_ext_in. Qed.
Lemma total_sum {A} (f : A -> nat -> R) m l : total (fun x => sum m (f x)) l = sum m (fun i => total (fun x => f x i) l).
Proof.
  unfold total, lsum. induction l as [|x l IH]; cbn; [symmetry; now apply sum_0|]. rewrite IH, <- sum_plus. reflexivity.
Qed.
Lemma total_nil {A} (f : A -> R) : total f [] = 0. Proof. reflexivity. Qed.
Lemma total_zero {A} (f : A -> R) l : (forall x, In x l -> f x = 0) -> total f l = 0.
Proof. intros H. unfold total, lsum. induction l; cbn; [reflexivity|]. rewrite H, IHl; [ring| |now left]. intros; apply H; now right. Qed.

Section El.
Variables (n_phi dim : nat) (cond : nat -> nat -> field) (capa : field) (sec : option lfun).

Lemma flux_eq q K sol i : flux n_phi dim q K sol i = sum dim (fun j => dT_at n_phi sol q j * K i j).
Proof.
  unfold flux. rewrite (fold_v _ (fun j i => grad n_phi q j sol * K i j)) by (intros; reflexivity).
  rewrite total_seq. unfold zero. rewrite Rplus_0_l. reflexivity.
Qed.
Lemma add_flux_eq w q fl f a : add_flux dim w q fl f a = f a + w * sum dim (fun i => dphi q a i * fl i).
Proof.
  unfold add_flux. rewrite (fold_v _ (fun i a => w * (dphi q a i * fl i))) by (intros; reflexivity).
  rewrite total_seq, sum_scal_l. reflexivity.
Qed.
Lemma add_cond_eq w q K jac a b : add_cond dim w q K jac a b =
  jac a b + w * sum dim (fun i => sum dim (fun j => K i j * (dphi q a i * dphi q b j))).
Proof.
  unfold add_cond. rewrite (fold_m _ (fun i a b => w * sum dim (fun j => K i j * (dphi q a i * dphi q b j)))).
  - rewrite total_seq, sum_scal_l. reflexivity.
  - intros g i a' b'. rewrite (fold_m _ (fun j a b => w * K i j * (dphi q a i * dphi q b j))) by (intros; reflexivity).
    rewrite total_seq, <- sum_scal_l. f_equal. apply sum_ext. intros; ring.
Qed.
Lemma add_dcond_eq w q dK sol jac a b : add_dcond n_phi dim w q dK sol jac a b =
  jac a b + w * sum dim (fun i => sum dim (fun j => dT_at n_phi sol q j * dK i j * (dphi q a i * phi q b))).
Proof.
  unfold add_dcond. rewrite (fold_m _ (fun j a b => w * sum dim (fun i => dT_at n_phi sol q j * dK i j * (dphi q a i * phi q b)))).
  - rewrite total_seq, sum_scal_l. f_equal. f_equal. apply sum_swap.
  - intros g j a' b'. rewrite (fold_m _ (fun i a b => w * grad n_phi q j sol * dK i j * (dphi q a i * phi q b))).
    + rewrite total_seq, <- sum_scal_l. f_equal. apply sum_ext. intros. unfold dT_at, grad; ring.
    + intros g' i a2 b2. destruct (reqb (dK i j) 0) eqn:E; [apply reqb_true in E; rewrite E; ring|reflexivity].
Qed.

(** internal residual *)
Lemma cond_flux act w q t sol f a :
  add_flux dim w q (flux n_phi dim q (fun i j => val (cond i j) t (at_temp n_phi act q sol) (xyz q)) sol) f a =
  f a + w * conduction n_phi dim cond act t sol a q.
Proof.
  rewrite add_flux_eq. f_equal. f_equal. unfold conduction. apply sum_ext. intros i _. rewrite flux_eq, <- sum_scal_l.
  apply sum_ext. intros j _. unfold at_temp, state_at, interp, T_at. ring.
Qed.
Lemma internal_f act qs t sol req : forall f jac a,
  fst (internal_residual n_phi dim cond act qs t sol req (f, jac)) a =
  f a + integral qs (conduction n_phi dim cond act t sol a).
Proof.
  unfold internal_residual, integral, total. induction qs as [|q qs IH]; intros f jac a; cbn [fold_left map lsum fold_right]; [cbn; ring|].
  unfold internal_qp at 2. destruct req.
  - rewrite IH, cond_flux. unfold lsum; cbn; ring.
  - rewrite IH, cond_flux. unfold lsum; cbn; ring.
Qed.
(** the tangent at a point *)
Definition cond_tan (act : bool) (t : R) (sol : vec) (a b : nat) (q : qpt) : R :=
  sum dim (fun i => sum dim (fun j =>
    val (cond i j) t (state_at act n_phi sol q) (xyz q) * (dphi q a i * dphi q b j)
    + (if act then dT_at n_phi sol q j * d_temp (cond i j) t (state_at act n_phi sol q) (xyz q) * (dphi q a i * phi q b) else 0))).
Lemma internal_jac act qs t sol : forall f jac a b,
  snd (internal_residual n_phi dim cond act qs t sol true (f, jac)) a b =
  jac a b + integral qs (cond_tan act t sol a b).
Proof.
  unfold internal_residual, integral, total. induction qs as [|q qs IH]; intros f jac a b; cbn [fold_left map lsum fold_right]; [cbn; ring|].
  unfold internal_qp at 2. rewrite IH.
  transitivity (jac a b + jxw q * cond_tan act t sol a b q + lsum (map (fun q0 => jxw q0 * cond_tan act t sol a b q0) qs)); [f_equal|unfold lsum; cbn; ring].
  unfold cond_tan. destruct act.
  - rewrite add_dcond_eq, add_cond_eq. rewrite Rplus_assoc, <- Rmult_plus_distr_l. f_equal. f_equal.
    rewrite <- sum_plus. apply sum_ext. intros i _. rewrite <- sum_plus. reflexivity.
  - rewrite add_cond_eq. f_equal. f_equal. apply sum_ext. intros i _. apply sum_ext. intros j _. unfold at_temp, state_at. ring.
Qed.
Lemma internal_jac_not act qs t sol : forall f jac, snd (internal_residual n_phi dim cond act qs t sol false (f, jac)) = jac.
Proof.
  unfold internal_residual. induction qs as [|q qs IH]; intros f jac; [reflexivity|]. cbn [fold_left]. unfold internal_qp at 2. apply IH.
Qed.
Definition cond_par (act : bool) (t : R) (sol : vec) (a : nat) (q : qpt) : R :=
  sum dim (fun i => sum dim (fun j =>
    dphi q a i * (d_par (cond i j) t (state_at act n_phi sol q) (xyz q) * dT_at n_phi sol q j))).
Lemma internal_sens act qs t sol f a :
  internal_residual_sensitivity n_phi dim cond act qs t sol f a = f a + integral qs (cond_par act t sol a).
Proof.
  unfold internal_residual_sensitivity. rewrite (fold_v _ (fun q a => jxw q * cond_par act t sol a q)); [reflexivity|].
  intros g q i. rewrite add_flux_eq. f_equal. f_equal. unfold cond_par. apply sum_ext. intros k _. rewrite flux_eq, <- sum_scal_l.
  apply sum_ext. intros j _. unfold at_temp, state_at, interp, T_at. ring.
Qed.

(** ** derivatives along a history *)
Lemma der_T t0 T dT q : history n_phi t0 T dT -> is_derive (fun t => T_at n_phi (T t) q) t0 (T_at n_phi dT q).
Proof.
  intros H. unfold T_at. apply (der_sum n_phi (fun a t => phi q a * T t a) (fun a => phi q a * dT a)).
  intros a Ha. apply der_scal. auto.
Qed.
Lemma der_dT t0 T dT q j : history n_phi t0 T dT -> is_derive (fun t => dT_at n_phi (T t) q j) t0 (dT_at n_phi dT q j).
Proof.
  intros H. unfold dT_at. apply (der_sum n_phi (fun a t => dphi q a j * T t a) (fun a => dphi q a j * dT a)).
  intros a Ha. apply der_scal. auto.
Qed.
Lemma der_mult (f g : R -> R) (x a b : R) : is_derive f x a -> is_derive g x b ->
  is_derive (fun t => f t * g t) x (a * g x + f x * b).
Proof. intros F G. apply (is_derive_mult f g x a b F G). intros; apply Rmult_comm. Qed.
Lemma der_plus (f g : R -> R) (x a b : R) : is_derive f x a -> is_derive g x b ->
  is_derive (fun t => f t + g t) x (a + b).
Proof. intros F G. exact (is_derive_plus f g x a b F G). Qed.
Lemma der_const (c x : R) : is_derive (fun _ => c) x 0.
Proof. apply @is_derive_const. Qed.
Lemma der_opp (f : R -> R) (x a : R) : is_derive f x a -> is_derive (fun t => - f t) x (- a).
Proof. intros F. exact (is_derive_opp f x a F). Qed.
Lemma der_pow (f : R -> R) (x a : R) m : is_derive f x a -> is_derive (fun t => f t ^ m) x (INR m * a * f x ^ (pred m)).
Proof. intros F. exact (is_derive_pow f m x a F). Qed.
Lemma der_integral qs (g : R -> qpt -> R) (d : qpt -> R) t0 :
  (forall q, In q qs -> is_derive (fun t => g t q) t0 (d q)) ->
  is_derive (fun t => integral qs (g t)) t0 (integral qs d).
Proof.
  intros H. unfold integral. apply (der_total qs (fun q t => jxw q * g t q) (fun q => jxw q * d q)).
  intros q Hq. apply der_scal. auto.
Qed.
Lemma der_field g act t0 T dT q : smooth_field g t0 -> history n_phi t0 T dT ->
  is_derive (fun t => val g t (state_at act n_phi (T t) q) (xyz q)) t0
   ((if act then d_temp g t0 (state_at act n_phi (T t0) q) (xyz q) * T_at n_phi dT q else 0)
     + d_par g t0 (state_at act n_phi (T t0) q) (xyz q)).
Proof.
  intros [S1 S2] H. unfold state_at. destruct act.
  - apply (S1 (xyz q) (fun t => T_at n_phi (T t) q)). now apply der_T.
  - rewrite Rplus_0_l. apply S2.
Qed.
Lemma der_conduction act t0 T dT a q : (forall i j, (i < dim)%nat -> (j < dim)%nat -> smooth_field (cond i j) t0) ->
  history n_phi t0 T dT ->
  is_derive (fun t => conduction n_phi dim cond act t (T t) a q) t0
    (sum n_phi (fun b => cond_tan act t0 (T t0) a b q * dT b) + cond_par act t0 (T t0) a q).
Proof.
  intros S H. unfold conduction.
  assert (E : sum n_phi (fun b => cond_tan act t0 (T t0) a b q * dT b) + cond_par act t0 (T t0) a q =
   sum dim (fun i => sum dim (fun j => dphi q a i *
     (((if act then d_temp (cond i j) t0 (state_at act n_phi (T t0) q) (xyz q) * T_at n_phi dT q else 0)
     + d_par (cond i j) t0 (state_at act n_phi (T t0) q) (xyz q)) * dT_at n_phi (T t0) q j
      + val (cond i j) t0 (state_at act n_phi (T t0) q) (xyz q) * dT_at n_phi dT q j)))).
  { unfold cond_par, cond_tan.
    assert (X : sum n_phi (fun b => sum dim (fun i => sum dim (fun j =>
        val (cond i j) t0 (state_at act n_phi (T t0) q) (xyz q) * (dphi q a i * dphi q b j)
         + (if act then dT_at n_phi (T t0) q j * d_temp (cond i j) t0 (state_at act n_phi (T t0) q) (xyz q) * (dphi q a i * phi q b) else 0))) * dT b)
      = sum dim (fun i => sum dim (fun j => sum n_phi (fun b =>
        (val (cond i j) t0 (state_at act n_phi (T t0) q) (xyz q) * (dphi q a i * dphi q b j)
         + (if act then dT_at n_phi (T t0) q j * d_temp (cond i j) t0 (state_at act n_phi (T t0) q) (xyz q) * (dphi q a i * phi q b) else 0)) * dT b)))).
    { rewrite (sum_ext n_phi _ (fun b => sum dim (fun i => sum dim (fun j =>
        (val (cond i j) t0 (state_at act n_phi (T t0) q) (xyz q) * (dphi q a i * dphi q b j)
         + (if act then dT_at n_phi (T t0) q j * d_temp (cond i j) t0 (state_at act n_phi (T t0) q) (xyz q) * (dphi q a i * phi q b) else 0)) * dT b)))).
      - rewrite sum_swap. apply sum_ext. intros i _. apply sum_swap.
      - intros b _. rewrite <- sum_scal_r. apply sum_ext. intros i _. rewrite <- sum_scal_r. reflexivity. }
    rewrite X, <- sum_plus. apply sum_ext. intros i _. rewrite <- sum_plus. apply sum_ext. intros j _.
    destruct act.
    - rewrite (sum_ext n_phi _ (fun b => val (cond i j) t0 (state_at true n_phi (T t0) q) (xyz q) * dphi q a i * (dphi q b j * dT b)
        + dT_at n_phi (T t0) q j * d_temp (cond i j) t0 (state_at true n_phi (T t0) q) (xyz q) * dphi q a i * (phi q b * dT b))) by (intros; ring).
      rewrite sum_plus, !sum_scal_l. fold (dT_at n_phi dT q j). fold (T_at n_phi dT q). ring.
    - rewrite (sum_ext n_phi _ (fun b => val (cond i j) t0 (state_at false n_phi (T t0) q) (xyz q) * dphi q a i * (dphi q b j * dT b))) by (intros; ring).
      rewrite sum_scal_l. fold (dT_at n_phi dT q j). ring. }
  rewrite E.
  apply (der_sum dim (fun i t => sum dim (fun j => dphi q a i * (val (cond i j) t (state_at act n_phi (T t) q) (xyz q) * dT_at n_phi (T t) q j)))).
  intros i Hi.
  apply (der_sum dim (fun j t => dphi q a i * (val (cond i j) t (state_at act n_phi (T t) q) (xyz q) * dT_at n_phi (T t) q j))).
  intros j Hj. apply der_scal.
  apply (der_mult (fun t => val (cond i j) t (state_at act n_phi (T t) q) (xyz q)) (fun t => dT_at n_phi (T t) q j)).
  - apply der_field; auto.
  - now apply der_dT.
Qed.
End El.
