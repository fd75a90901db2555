(** Lemmas on the level-set element: integrals over the quadrature points. *)
From Coq Require Import Reals Lra Lia.
From Coquelicot Require Import Coquelicot.
From Coq Require Import List Arith Bool Permutation.
From Verif Require Import Base BaseLemmas RBool Sens_Model Sens_Spec Sens_Proofs2 Heat_Proofs Solid_Proofs2 Lse_Model Lse_Spec.
Import ListNotations.
Open Scope R_scope.

Lemma fold_sum {A} (g : A -> R) l : forall s, fold_left (fun s x => s + g x) l s = s + total g l.
Proof. unfold total. induction l as [|x l IH]; intros s; cbn; [ring|]. rewrite IH. unfold lsum. ring. Qed.
Lemma fold_sub {A} (g : A -> R) l : forall s, fold_left (fun s x => s - g x) l s = s - total g l.
Proof. unfold total. induction l as [|x l IH]; intros s; cbn; [ring|]. rewrite IH. unfold lsum. ring. Qed.
Lemma total_seq (g : nat -> R) d : total g (seq 0 d) = sum d g.
Proof. induction d as [|d IH]; [reflexivity|]. rewrite seq_S. unfold total in *. rewrite map_app, lsum_app, IH. cbn. ring. Qed.
Lemma fold_seq (g : nat -> R) d s : fold_left (fun s j => s + g j) (seq 0 d) s = s + sum d g.
Proof. rewrite fold_sum, total_seq. reflexivity. Qed.
Lemma total_ext {A} (f g : A -> R) l : (forall x, In x l -> f x = g x) -> total f l = total g l.
Proof. intros H. unfold total. f_equal. apply map_ext_in. exact H. Qed.
Lemma total_plus {A} (f g : A -> R) l : total (fun x => f x + g x) l = total f l + total g l.
Proof. apply lsum_map_plus. Qed.
Lemma total_scal {A} c (f : A -> R) l : total (fun x => c * f x) l = c * total f l.
Proof. apply lsum_map_scal. Qed.
Lemma total_le {A} (f g : A -> R) l : (forall x, In x l -> f x <= g x) -> total f l <= total g l.
Proof. apply lsum_map_le. Qed.
Lemma total_pos {A} (f : A -> R) l : l <> [] -> (forall x, In x l -> 0 < f x) -> 0 < total f l.
Proof.
  intros N H. destruct l as [|x l]; [contradiction|]. unfold total. cbn.
  assert (0 < f x) by (apply H; left; auto).
  assert (0 <= lsum (map f l)) by (apply lsum_map_nonneg; intros y Hy; apply Rlt_le, H; right; auto).
  unfold lsum in *. lra.
Qed.
Lemma total_lt {A} (f g : A -> R) l : l <> [] -> (forall x, In x l -> f x < g x) -> total f l < total g l.
Proof.
  intros N H. assert (0 < total (fun x => g x - f x) l) by (apply total_pos; [auto|]; intros x Hx; specialize (H x Hx); lra).
  replace (total (fun x => g x - f x) l) with (total g l - total f l) in H0; [lra|].
  transitivity (total g l + total (fun x => -1 * f x) l); [rewrite total_scal; ring|].
  rewrite <- total_plus. apply total_ext. intros; ring.
Qed.
Lemma total_app {A} (f : A -> R) l1 l2 : total f (l1 ++ l2) = total f l1 + total f l2.
Proof. unfold total. rewrite map_app. apply lsum_app. Qed.

(** ** Norms *)
Lemma norm_len d v : norm d v = len d v.
Proof. unfold norm, len. f_equal. apply sum_ext. intros; ring. Qed.
Lemma sumsq_nonneg d (v : nat -> R) : 0 <= sum d (fun j => v j * v j).
Proof. apply sum_nonneg. intros. apply Rle_0_sqr. Qed.
Lemma len_sq d v : len d v * len d v = sum d (fun j => v j * v j).
Proof. apply sqrt_sqrt, sumsq_nonneg. Qed.
Lemma len_nonneg d v : 0 <= len d v.
Proof. apply sqrt_pos. Qed.
Lemma len_pos d v : len d v <> 0 -> 0 < len d v.
Proof. pose proof (len_nonneg d v). intros. lra. Qed.
Lemma dotp_comm d v w : dotp d v w = dotp d w v.
Proof. apply sum_ext. intros; ring. Qed.
Lemma dotp_scal_l d c v w : dotp d (fun j => c * v j) w = c * dotp d v w.
Proof. unfold dotp. rewrite <- sum_scal_l. apply sum_ext. intros; ring. Qed.
Lemma dotp_scal_r d c v w : dotp d v (fun j => c * w j) = c * dotp d v w.
Proof. unfold dotp. rewrite <- sum_scal_l. apply sum_ext. intros; ring. Qed.
Lemma len_dotp d v : dotp d v v = len d v * len d v.
Proof. symmetry. apply len_sq. Qed.
Lemma len_scal d c v : len d (fun j => c * v j) = Rabs c * len d v.
Proof.
  unfold len. rewrite <- (sqrt_Rsqr_abs c), <- sqrt_mult; [|apply Rle_0_sqr|apply sumsq_nonneg].
  f_equal. rewrite <- sum_scal_l. apply sum_ext. intros. unfold Rsqr. ring.
Qed.

(** ** The field *)
Lemma at_lin n q u : interp n q u = at_q n q u.
Proof. reflexivity. Qed.
Lemma at_scal n q c u : at_q n q (fun a => c * u a) = c * at_q n q u.
Proof. unfold at_q. rewrite <- sum_scal_l. apply sum_ext. intros; ring. Qed.
Lemma grad_scal n q c u j : grad_q n q (fun a => c * u a) j = c * grad_q n q u j.
Proof. unfold grad_q. rewrite <- sum_scal_l. apply sum_ext. intros; ring. Qed.
Lemma at_shift n d q u s : partition n d q -> at_q n q (fun a => u a + s) = at_q n q u + s.
Proof.
  intros [P _]. unfold at_q. transitivity (sum n (fun a => lN q a * u a) + sum n (fun a => lN q a * s)).
  - rewrite <- sum_plus. apply sum_ext. intros; ring.
  - rewrite sum_scal_r. change (fun k => lN q k) with (lN q). rewrite P. ring.
Qed.
Lemma der_at n q t0 u du : history n t0 u du -> is_derive (fun t : R => at_q n q (u t)) t0 (at_q n q du).
Proof. intros H. unfold at_q. apply (der_sum n (fun a t => lN q a * u t a) (fun a => lN q a * du a)). intros. apply der_scal. now apply H. Qed.
Lemma der_gradq n q t0 u du j : history n t0 u du -> is_derive (fun t : R => grad_q n q (u t) j) t0 (grad_q n q du j).
Proof. intros H. unfold grad_q. apply (der_sum n (fun a t => ldN q a j * u t a) (fun a => ldN q a j * du a)). intros. apply der_scal. now apply H. Qed.
Lemma der_intl qs (g : R -> lpt -> R) (d : lpt -> R) t0 :
  (forall q, In q qs -> is_derive (fun t : R => g t q) t0 (d q)) ->
  is_derive (fun t : R => integral qs (g t)) t0 (integral qs d).
Proof. intros H. unfold integral. apply (der_total qs (fun q t => lw q * g t q) (fun q => lw q * d q)). intros. apply der_scal. now apply H. Qed.
Lemma int_ext qs f g : (forall q, In q qs -> f q = g q) -> integral qs f = integral qs g.
Proof. intros H. unfold integral. apply total_ext. intros. now rewrite H. Qed.
Lemma int_scal qs c f : integral qs (fun q => c * f q) = c * integral qs f.
Proof. unfold integral. rewrite <- total_scal. apply total_ext. intros; ring. Qed.
Lemma int_plus qs f g : integral qs (fun q => f q + g q) = integral qs f + integral qs g.
Proof. unfold integral. rewrite <- total_plus. apply total_ext. intros; ring. Qed.

(** ** Volume *)
Lemma volume_eq n qs u : volume n qs u = integral qs (fun q => step (at_q n q u)).
Proof.
  unfold volume, integral.
  transitivity (fold_left (fun s q => s + lw q * step (at_q n q u)) qs 0); [|rewrite fold_sum; ring].
  generalize 0 at 2 3. induction qs as [|q qs IH]; intros s; cbn [fold_left]; [reflexivity|].
  rewrite IH. f_equal. unfold step. change (interp n q u) with (at_q n q u).
  destruct (Rlt_dec 0 (at_q n q u)) as [H|H]; rb; lra.
Qed.
Lemma measure_eq qs : fold_left (fun v q => v + lw q) qs 0 = integral qs (fun _ => 1).
Proof. rewrite fold_sum. unfold integral. rewrite Rplus_0_l. apply total_ext. intros; ring. Qed.
Lemma measure_pos qs : positive qs -> 0 < integral qs (fun _ => 1).
Proof. intros [N P]. unfold integral. apply total_pos; [auto|]. intros q Hq. specialize (P q Hq). lra. Qed.

(** ** Smoothed step *)
Lemma pi_pos : 0 < PI.
Proof. apply PI_RGT_0. Qed.
Lemma smooth_step_bound d x : 0 < smooth_step d x < 1.
Proof.
  unfold smooth_step. pose proof (atan_bound (x / d)). pose proof pi_pos.
  assert (E : atan (x / d) / PI * PI = atan (x / d)) by (field; lra).
  split; apply Rmult_lt_reg_r with PI; try assumption; lra.
Qed.
Lemma smooth_step_mono d x y : 0 < d -> x < y -> smooth_step d x < smooth_step d y.
Proof.
  intros Hd H. unfold smooth_step. apply Rplus_lt_compat_l. apply Rmult_lt_compat_r; [apply Rinv_0_lt_compat, pi_pos|].
  apply atan_increasing. apply Rmult_lt_compat_r; [now apply Rinv_0_lt_compat|auto].
Qed.
Lemma smooth_step_neg d x : smooth_step d (- x) = 1 - smooth_step d x.
Proof. unfold smooth_step. replace (- x / d) with (- (x / d)) by (unfold Rdiv; ring). rewrite atan_opp. unfold Rdiv. lra. Qed.
Lemma smooth_step_scale c d x : c <> 0 -> smooth_step (c * d) (c * x) = smooth_step d x.
Proof.
  intros Hc. unfold smooth_step. replace (c * x / (c * d)) with (x / d); [reflexivity|].
  unfold Rdiv. rewrite Rinv_mult. transitivity (x * / d * (c * / c)); [rewrite Rinv_r by auto; ring|ring].
Qed.
Lemma delta_den d x : d <> 0 -> 0 < d * d + x * x.
Proof. intros H. assert (0 < d * d) by nra. nra. Qed.
Lemma der_step d (f : R -> R) (t0 df : R) : d <> 0 -> is_derive f t0 df ->
  is_derive (fun t => smooth_step d (f t)) t0 (smooth_delta d (f t0) * df).
Proof.
  intros Hd H. pose proof (delta_den d (f t0) Hd) as P. pose proof pi_pos.
  assert (A : is_derive atan (f t0 / d) (/ (1 + (f t0 / d) ^ 2))).
  { apply is_derive_Reals. apply derivable_pt_lim_atan. }
  assert (B : is_derive (fun t => f t / d) t0 (df / d)).
  { apply (der_fun (fun t => / d * f t)); [intros; unfold Rdiv; ring|]. eapply der_eq; [apply der_scal, H|]. unfold Rdiv; ring. }
  pose proof (is_derive_comp atan (fun t => f t / d) t0 _ _ A B) as C.
  unfold smooth_step. apply (der_fun (fun t => 1/2 + / PI * atan (f t / d))); [intros; unfold Rdiv; ring|].
  eapply der_eq; [apply der_plus; [apply der_const|apply der_scal, C]|].
  unfold smooth_delta, scal; cbn. unfold mult; cbn. field.
  repeat split; auto; intros E; lra.
Qed.
Lemma delta_pos d x : 0 < d -> 0 < smooth_delta d x.
Proof.
  intros H. unfold smooth_delta. apply Rdiv_lt_0_compat; [auto|]. apply Rmult_lt_0_compat; [apply pi_pos|].
  apply delta_den. intros E; lra.
Qed.
Lemma delta_code d x : d <> 0 -> 1 / PI / d / (1 + (x / d) ^ 2) = smooth_delta d x.
Proof.
  intros Hd. pose proof (delta_den d x Hd). pose proof pi_pos. unfold smooth_delta. field.
  repeat split; auto; intros E; lra.
Qed.
Lemma delta_scale c d x : c <> 0 -> d <> 0 -> smooth_delta (c * d) (c * x) = / c * smooth_delta d x.
Proof.
  intros Hc Hd. unfold smooth_delta. pose proof (delta_den d x Hd). pose proof pi_pos.
  replace (PI * (c * d * (c * d) + c * x * (c * x))) with (c * c * (PI * (d * d + x * x))) by ring.
  field. repeat split; auto; intros E; lra.
Qed.
Lemma delta_even d x : smooth_delta d (- x) = smooth_delta d x.
Proof. unfold smooth_delta. do 3 f_equal. ring. Qed.
(** derivative of the smoothed delta function *)
Definition ddelta (d x : R) : R := - (2 * x * d) / (PI * ((d * d + x * x) * (d * d + x * x))).
Lemma der_delta d (f : R -> R) (t0 df : R) : d <> 0 -> is_derive f t0 df ->
  is_derive (fun t => smooth_delta d (f t)) t0 (ddelta d (f t0) * df).
Proof.
  intros Hd H. pose proof (delta_den d (f t0) Hd) as P. pose proof pi_pos.
  assert (A : is_derive (fun x => smooth_delta d x) (f t0) (ddelta d (f t0))).
  { unfold smooth_delta, ddelta. auto_derive; [intros E; apply Rmult_integral in E; destruct E as [E|E]; [lra|]; lra|].
    field. split; [intros E; lra|]. lra. }
  eapply der_eq; [apply (is_derive_comp (smooth_delta d) f t0 _ _ A H)|].
  unfold scal; cbn. unfold mult; cbn. ring.
Qed.
Lemma ddelta_code d x : d <> 0 -> 2 * x / PI / d ^ 3 / (1 + (x / d) ^ 2) ^ 2 = - ddelta d x.
Proof.
  intros Hd. pose proof (delta_den d x Hd). pose proof pi_pos. unfold ddelta. field.
  repeat split; auto; intros E; lra.
Qed.

(** ** What the code computes *)
Lemma fraction_eq n qs u d : d <> 0 -> positive qs ->
  homogenized_volume_fraction n qs u d = Ok (integral qs (fun q => smooth_step d (at_q n q u)) / integral qs (fun _ => 1)).
Proof.
  intros Hd P. pose proof (measure_pos qs P) as M. unfold homogenized_volume_fraction.
  rewrite measure_eq. rewrite (proj2 (reqb_false _ _) Hd). rewrite (proj2 (reqb_false _ _)) by (intros E; lra). do 2 f_equal.
  rewrite fold_sum, Rplus_0_l. unfold integral. apply total_ext. intros q _. change (interp n q u) with (at_q n q u).
  unfold smooth_step. field. repeat split; auto; intros E; pose proof pi_pos; lra.
Qed.
Lemma fraction_sens_eq n qs u du d : d <> 0 -> positive qs ->
  homogenized_volume_fraction_sensitivity n qs u du d =
  Ok (integral qs (fun q => smooth_delta d (at_q n q u) * at_q n q du) / integral qs (fun _ => 1)).
Proof.
  intros Hd P. pose proof (measure_pos qs P) as M. unfold homogenized_volume_fraction_sensitivity.
  rewrite measure_eq. rewrite (proj2 (reqb_false _ _) Hd). rewrite (proj2 (reqb_false _ _)) by (intros E; lra). do 2 f_equal.
  rewrite fold_sum, Rplus_0_l. unfold integral. apply total_ext. intros q _.
  change (interp n q u) with (at_q n q u). change (interp n q du) with (at_q n q du).
  rewrite (delta_code d (at_q n q u) Hd). ring.
Qed.
Lemma perimeter_eq n qs u d : d <> 0 -> perimeter n qs u d = Ok (integral qs (fun q => smooth_delta d (at_q n q u))).
Proof.
  intros Hd. unfold perimeter. rewrite (proj2 (reqb_false _ _) Hd). f_equal. rewrite fold_sum, Rplus_0_l. unfold integral.
  apply total_ext. intros q _. change (interp n q u) with (at_q n q u). rewrite (delta_code d (at_q n q u) Hd). ring.
Qed.
Lemma perimeter_sens_eq n qs u du d : d <> 0 ->
  perimeter_sensitivity n qs u du d = Ok (integral qs (fun q => ddelta d (at_q n q u) * at_q n q du)).
Proof.
  intros Hd. unfold perimeter_sensitivity. rewrite (proj2 (reqb_false _ _) Hd). f_equal. rewrite fold_sub.
  transitivity (0 - total (fun q => lw q * (- (ddelta d (at_q n q u) * at_q n q du))) qs).
  - f_equal. apply total_ext. intros q _. change (interp n q u) with (at_q n q u). change (interp n q du) with (at_q n q du).
    rewrite (ddelta_code d (at_q n q u) Hd). ring.
  - change (0 - integral qs (fun q => - (ddelta d (at_q n q u) * at_q n q du)) = integral qs (fun q => ddelta d (at_q n q u) * at_q n q du)).
    rewrite (int_ext qs _ (fun q => -1 * (ddelta d (at_q n q u) * at_q n q du))) by (intros; ring). rewrite int_scal. ring.
Qed.

(** ** Loops that may fail *)
Lemma over_sum (g : lpt -> outcome R) qs : forall s0 s,
  over (fun s q => v <- g q ;; Ok (s + v)) qs s0 = Ok s ->
  exists val, (forall q, In q qs -> g q = Ok (val q)) /\ s = s0 + total val qs.
Proof.
  induction qs as [|q qs IH]; intros s0 s H; cbn in H.
  - exists (fun _ => 0). split; [intros q []|]. injection H as <-. unfold total; cbn; ring.
  - destruct (g q) as [v|] eqn:E; cbn in H; [|discriminate].
    destruct (IH _ _ H) as (val & Hv & ->).
    exists (fun x => match g x with Ok y => y | _ => 0 end). split.
    + intros x [<-|Hx]; [now rewrite E|now rewrite (Hv x Hx)].
    + unfold total; cbn. rewrite E. replace (map val qs) with (map (fun x => match g x with Ok y => y | _ => 0 end) qs); [unfold lsum; ring|].
      apply map_ext_in. intros x Hx. now rewrite (Hv x Hx).
Qed.
Lemma side_eq n dim side u du : (forall q, In q side -> len dim (grad_q n q u) <> 0) ->
  volume_boundary_velocity n dim side u du = Ok (integral side (fun q => at_q n q du / len dim (grad_q n q u))).
Proof.
  unfold volume_boundary_velocity. intros H.
  assert (G : forall s, over (fun dv q => let g := norm dim (slope n q u) in
     if reqb g 0 then Fault DivByZero else Ok (dv + interp n q du / g * lw q)) side s =
     Ok (s + integral side (fun q => at_q n q du / len dim (grad_q n q u)))).
  2:{ rewrite G. now rewrite Rplus_0_l. }
  induction side as [|q side IH]; intros s; cbn [over].
  - unfold integral, total; cbn. f_equal; ring.
  - assert (Hq : norm dim (slope n q u) <> 0) by (rewrite norm_len; apply H; left; auto).
    rewrite (proj2 (reqb_false _ _) Hq). cbn [bind]. rewrite IH by (intros; apply H; right; auto).
    rewrite norm_len. unfold integral, total; cbn. change (interp n q du) with (at_q n q du).
    change (slope n q u) with (grad_q n q u). f_equal. unfold lsum. ring.
Qed.
Lemma side_flat n dim side u du : forall q, In q side -> len dim (grad_q n q u) = 0 ->
  volume_boundary_velocity n dim side u du = Fault DivByZero.
Proof.
  unfold volume_boundary_velocity. generalize 0 at 3 as s. induction side as [|p side IH]; intros s q Hq E; [destruct Hq|].
  destruct Hq as [<-|Hq]; cbn [over].
  - change (slope n p u) with (grad_q n p u). rewrite norm_len, E. rewrite (proj2 (reqb_true _ _) eq_refl). reflexivity.
  - destruct (reqb (norm dim (slope n p u)) 0); [reflexivity|]. cbn [bind]. now apply (IH _ q).
Qed.
