(** C226: the matrices of the buckling eigenproblem; C227: the critical load estimated from an eigenvalue; C228: its sensitivity. *)
From Coq Require Import Reals.
From Coquelicot Require Import Coquelicot.
From Coq Require Import List Arith Bool Lra Lia Permutation.
From Verif Require Import Base BaseLemmas RBool Sens_Model Sens_Spec Sens_Proofs Sens_Proofs2 Rom_Model Lei_Model Lei_Spec Lei_Proofs Bck_Model Bck_Spec Bck_Proofs.
Import ListNotations.
Open Scope R_scope.

(** ** C226 *)
(** the settings are those given last *)
Theorem C226_data : forall l lin l1 l2 x1 x2, bcalls (l ++ [BData lin l1 l2 x1 x2]) = mkBset lin l1 l2 (Some (x1, x2)) /\ bcalls (l ++ [BReset]) = bset0.
Proof. intros. unfold bcalls. rewrite !fold_left_app. split; reflexivity. Qed.
Theorem C226_unset : forall checked C th l rks, bassemble checked C th (bcalls (l ++ [BReset])) rks = Fault NullDeref /\ bassemble checked C th (bcalls []) rks = Fault NullDeref.
Proof. intros. unfold bassemble. rewrite (proj2 (C226_data l true 0 0 zero zero)). split; reflexivity. Qed.
(** without assertions, or if every process has one element at most and is used once: the forms on admissible vectors *)
Theorem C226_matrices_partial : forall checked C th l lin l1 l2 x1 x2 rks, bmesh_ok C (mesh_elems rks) -> (checked = false \/ one_each rks) ->
  exists st A B, bassemble checked C th (bcalls (l ++ [BData lin l1 l2 x1 x2])) rks = Ok (st, A, B) /\
    forall x y, admissible C x -> admissible C y ->
      bilinear (n C) A x y = stiffness th (mesh_elems rks) l1 x1 x y /\
      bilinear (n C) B x y = (if lin then stiffness th (mesh_elems rks) l1 x1 x y else 0) - stiffness th (mesh_elems rks) l2 x2 x y.
Proof.
  intros checked C th l lin l1 l2 x1 x2 rks K H. rewrite (proj1 (C226_data l lin l1 l2 x1 x2)). unfold bassemble. cbn [bs_sol].
  rewrite run_all by auto. eexists _, _, _. split; [reflexivity|]. intros x y Ax Ay. split; [now rewrite form_A|now rewrite form_B].
Qed.
(** whatever the distribution *)
Theorem C226_distribution : forall C th D rks rks' st A B st' A' B', bmesh_ok C (mesh_elems rks) -> Permutation (mesh_elems rks) (mesh_elems rks') ->
  bassemble false C th D rks = Ok (st, A, B) -> bassemble false C th D rks' = Ok (st', A', B') ->
  forall x y, admissible C x -> admissible C y -> bilinear (n C) A x y = bilinear (n C) A' x y /\ bilinear (n C) B x y = bilinear (n C) B' x y.
Proof.
  intros C th D rks rks' st A B st' A' B' K P E E' x y Ax Ay.
  assert (K' : bmesh_ok C (mesh_elems rks')).
  { destruct K as (K1 & K2 & K3). split; [intros e d He; apply K1|split; [exact K2|intros e d r j c He; apply K3]]; eapply Permutation_in; try apply Permutation_sym; eauto. }
  unfold bassemble in *. destruct (bs_sol D) as [(x1, x2)|]; [|discriminate]. rewrite run_all in E, E' by auto. inversion E; inversion E'; subst.
  rewrite !form_A, !form_B by auto. unfold stiffness. rewrite !(total_perm _ _ _ P). auto.
Qed.
(** with assertions the second element of a process stops the program, and so does the first one of the next analysis *)
Theorem C226_second_refuted : forall C th l lin l1 l2 x1 x2 rks, bmesh_ok C (mesh_elems rks) -> ~ one_each rks ->
  bassemble true C th (bcalls (l ++ [BData lin l1 l2 x1 x2])) rks = Fault AssertFailed.
Proof.
  intros C th l lin l1 l2 x1 x2 rks K H. rewrite (proj1 (C226_data l lin l1 l2 x1 x2)). unfold bassemble. cbn [bs_sol]. set (D := mkBset _ _ _ _).
  enough (Q : forall rks done A B, bmesh_ok C (mesh_elems rks) -> ~ one_each rks -> fold_left (brank true C th D x1 x2) rks (Ok (done, A, B)) = Fault AssertFailed) by now apply Q.
  clear. induction rks as [|((h, load), es) rks IH]; intros done A B K H; [exfalso; apply H; intros ? ? ? []|].
  assert (Ks : bmesh_ok C es /\ bmesh_ok C (mesh_elems rks)).
  { destruct K as (K1 & K2 & K3). cbn in K1, K3.
    split; (split; [|split; [exact K2|]]); try (intros e d He; apply K1; apply in_or_app; auto); intros e d r j c He; apply K3; apply in_or_app; auto. }
  cbn [fold_left]. unfold brank at 2. cbn [bind].
  assert (Bad : forall e es load A B lost, fold_left (bstep true C th D x1 x2) (e :: es) (Ok (mkBp true lost load A B)) = Fault AssertFailed)
    by (intros; cbn [fold_left]; unfold bstep at 2; cbn [bind bp_held andb]; apply fault_step).
  destruct es as [|e es].
  - cbn [fold_left bind bp_held bp_lost bp_load bp_A bp_B]. apply IH; [apply Ks|]. intros O1. apply H. intros h' l' es' [I|I]; [inversion I; now left|exact (O1 h' l' es' I)].
  - destruct h; [rewrite Bad; cbn [bind]; apply fault_rank|].
    destruct es as [|e2 es].
    + rewrite run_rank; [|apply Ks|right; right; split; reflexivity]. cbn [bind bp_held bp_lost bp_load bp_A bp_B]. apply IH; [apply Ks|]. intros O1. apply H.
      intros h' l' es' [I|I]; [inversion I; right; split; reflexivity|exact (O1 h' l' es' I)].
    + assert (E1 : bstep true C th D x1 x2 (Ok (mkBp false 0 load A B)) e = Ok (mkBp true 0 (bs_l2 D) (addA C th D x1 A e) (addB C th D x1 x2 B e))).
      { unfold bstep. cbn [bind bp_held andb bp_A bp_B bp_lost]. rewrite (reached_none C _ (proj1 Ks) e (or_introl eq_refl)). reflexivity. }
      change (e :: e2 :: es) with ([e] ++ (e2 :: es)). rewrite fold_left_app. cbn [fold_left] in *. rewrite E1. fold (fold_left (bstep true C th D x1 x2) es).
      rewrite (Bad e2 es). cbn [bind]. apply fault_rank.
Qed.
(** without assertions all element objects but the last of each process are lost, and the load parameter is left at the second value *)
Theorem C226_leak_refuted : forall C th l lin l1 l2 x1 x2 rks, bmesh_ok C (mesh_elems rks) ->
  exists st A B, bassemble false C th (bcalls (l ++ [BData lin l1 l2 x1 x2])) rks = Ok (st, A, B) /\
    length st = length rks /\ forall i h load es, nth_error rks i = Some (h, load, es) -> es <> [] ->
      nth_error st i = Some (true, (length es - (if h then 0 else 1))%nat, l2).
Proof.
  intros C th l lin l1 l2 x1 x2 rks K. rewrite (proj1 (C226_data l lin l1 l2 x1 x2)). unfold bassemble. cbn [bs_sol].
  rewrite run_all by auto. eexists _, _, _. split; [reflexivity|]. split; [cbn; apply map_length|]. intros i h load es E N. cbn [app].
  rewrite nth_error_map, E. cbn. destruct es as [|e es]; [contradiction|]. cbn. now rewrite orb_true_r.
Qed.
(** a constraint reaching out of the element: the solution is written past its end *)
Theorem C226_hanging_refuted : forall C th l lin l1 l2 x1 x2 load e es rks, reached C (be_dofs e) <> [] ->
  bassemble false C th (bcalls (l ++ [BData lin l1 l2 x1 x2])) ((false, load, e :: es) :: rks) = Fault OutOfBounds.
Proof.
  intros C th l lin l1 l2 x1 x2 load e es rks H. rewrite (proj1 (C226_data l lin l1 l2 x1 x2)). unfold bassemble. cbn [bs_sol fold_left].
  unfold brank at 2. cbn [bind fold_left]. unfold bstep at 2. cbn [bind bp_held andb].
  assert (Q : (length (reached C (be_dofs e)) =? 0)%nat = false) by (apply Nat.eqb_neq; destruct (reached C (be_dofs e)); [contradiction|discriminate]).
  rewrite Q. cbn [negb]. rewrite fault_step. cbn [bind]. apply fault_rank.
Qed.

(** ** C227 *)
(** an eigenvalue is turned into the load at which the stiffness interpolated between the two states is singular *)
Theorem C227_estimate : forall C th D rks st A B x1 x2 v z, bmesh_ok C (mesh_elems rks) -> bs_sol D = Some (x1, x2) ->
  bassemble false C th D rks = Ok (st, A, B) -> pencil_mode C A B v z -> (bs_lin D = false -> v <> -1) ->
  exists s, critical_estimate D v = Ok (bs_l1 D + s * (bs_l2 D - bs_l1 D)) /\
    forall y, admissible C y -> between (stiffness th (mesh_elems rks) (bs_l1 D) x1) (stiffness th (mesh_elems rks) (bs_l2 D) x2) s y z = 0.
Proof.
  intros C th D rks st A B x1 x2 v z K S E (Az & M) V. unfold bassemble in E. rewrite S, run_all in E by auto. inversion E; subst. unfold critical_estimate.
  destruct (bs_lin D) eqn:L.
  - exists v. split; [reflexivity|]. intros y Ay. specialize (M y Ay). rewrite form_A, form_B, L in M by auto. unfold between. lra.
  - specialize (V eq_refl). destruct (reqb (1 + v) 0) eqn:Q; [apply reqb_true in Q; exfalso; apply V; lra|].
    exists (v / (1 + v)). split; [reflexivity|]. intros y Ay. specialize (M y Ay). rewrite form_A, form_B, L in M by auto. unfold between. rewrite M. field. lra.
Qed.
(** if the stiffness along the equilibrium path is an affine function of the load, that is the critical load *)
Theorem C227_affine : forall C th D rks st A B v z (X : R -> vec) P Q, bmesh_ok C (mesh_elems rks) -> bs_sol D = Some (X (bs_l1 D), X (bs_l2 D)) ->
  (forall lam y, admissible C y -> stiffness th (mesh_elems rks) lam (X lam) y z = P y + lam * Q y) ->
  bassemble false C th D rks = Ok (st, A, B) -> pencil_mode C A B v z -> (bs_lin D = false -> v <> -1) ->
  exists lam, critical_estimate D v = Ok lam /\ forall y, admissible C y -> stiffness th (mesh_elems rks) lam (X lam) y z = 0.
Proof.
  intros C th D rks st A B v z X P Q K S H E M V. destruct (C227_estimate C th D rks st A B _ _ v z K S E M V) as (s & Es & Z).
  eexists. split; [exact Es|]. intros y Ay. specialize (Z y Ay). unfold between in Z. rewrite !H in Z by auto. rewrite H by auto. rewrite <- Z. ring.
Qed.
(** every critical fraction is found, except the second state itself in the formulation without linearisation *)
Theorem C227_complete_partial : forall C th D rks st A B x1 x2 s z, bmesh_ok C (mesh_elems rks) -> bs_sol D = Some (x1, x2) ->
  bassemble false C th D rks = Ok (st, A, B) -> admissible C z ->
  (forall y, admissible C y -> between (stiffness th (mesh_elems rks) (bs_l1 D) x1) (stiffness th (mesh_elems rks) (bs_l2 D) x2) s y z = 0) ->
  (bs_lin D = false -> s <> 1) ->
  exists v, pencil_mode C A B v z /\ critical_estimate D v = Ok (bs_l1 D + s * (bs_l2 D - bs_l1 D)).
Proof.
  intros C th D rks st A B x1 x2 s z K S E Az Z V. unfold bassemble in E. rewrite S, run_all in E by auto. inversion E; subst. unfold critical_estimate.
  destruct (bs_lin D) eqn:L.
  - exists s. split; [split; auto|reflexivity]. intros y Ay. rewrite form_A, form_B, L by auto. specialize (Z y Ay). unfold between in Z. lra.
  - specialize (V eq_refl). exists (s / (1 - s)). assert (Q1 : 1 + s / (1 - s) = / (1 - s)) by (field; lra). split.
    + split; auto. intros y Ay. rewrite form_A, form_B, L by auto. specialize (Z y Ay). unfold between in Z.
      apply (Rmult_eq_reg_l (1 - s)); [|lra]. transitivity (- (s * stiffness th (mesh_elems rks) (bs_l2 D) x2 y z)); [lra|field; lra].
    + destruct (reqb (1 + s / (1 - s)) 0) eqn:Q.
      * apply reqb_true in Q. rewrite Q1 in Q. exfalso. apply (Rinv_neq_0_compat (1 - s)); [lra|exact Q].
      * f_equal. f_equal. f_equal. rewrite Q1. field. lra.
Qed.
(** there no eigenvalue belongs to the mode *)
Theorem C227_infinite_refuted : forall C th D rks st A B x1 x2 z y0, bmesh_ok C (mesh_elems rks) -> bs_sol D = Some (x1, x2) -> bs_lin D = false ->
  bassemble false C th D rks = Ok (st, A, B) -> (forall y, admissible C y -> stiffness th (mesh_elems rks) (bs_l2 D) x2 y z = 0) ->
  admissible C y0 -> stiffness th (mesh_elems rks) (bs_l1 D) x1 y0 z <> 0 -> forall v, ~ pencil_mode C A B v z.
Proof.
  intros C th D rks st A B x1 x2 z y0 K S L E Z Ay N v (Az & M). unfold bassemble in E. rewrite S, run_all in E by auto. inversion E; subst.
  specialize (M y0 Ay). rewrite form_A, form_B, L, Z in M by auto. apply N. lra.
Qed.
(** equal stiffness at both states *)
Theorem C227_division_refuted : forall D, bs_lin D = false -> critical_estimate D (-1) = Fault DivByZero.
Proof. intros D L. unfold critical_estimate. rewrite L. assert (Q : reqb (1 + -1) 0 = true) by (apply reqb_true; ring). now rewrite Q. Qed.

(** ** C228 *)
(** the quotient computed: the second matrix does not enter *)
Theorem C228_value_partial : forall C th held load X dX f es MB v z, bmesh_ok C es -> admissible C z ->
  beig_sens false C th held load (Some X) (Some dX) f es MB v z = Ok (stiffness_rate th es load f X dX z z / bilinear (n C) MB z z).
Proof.
  intros C th held load X dX f es MB v z K Az. unfold beig_sens, bsens. cbn [is_some negb andb].
  assert (Q : existsb (fun e => negb (length (reached C (be_dofs e)) =? 0)%nat) es = false).
  { apply not_true_iff_false. intros T. apply existsb_exists in T. destruct T as (e & He & T). rewrite (reached_none C es K e He) in T. discriminate. }
  rewrite Q. cbn [bind fst snd ebase]. f_equal. rewrite !bilinear_quadratic.
  pose proof (fold_form C es (fun e => bdcalc e th load f (gather (be_dofs e) X) (gather (be_dofs e) dX)) mzero z z K Az Az) as F1.
  pose proof (fold_form C es (fun _ => mzero) mzero z z K Az Az) as F2. cbv beta in F1, F2. rewrite bilinear_zero in F1, F2.
  etransitivity; [apply (f_equal2 (fun a b => (a - v * b) / bilinear (n C) MB z z)); [exact F1|exact F2]|].
  rewrite (total_0 (fun e => local_form (be_dofs e) mzero z z)).
  - f_equal. unfold stiffness_rate. rewrite Rplus_0_l, Rplus_0_l, Rmult_0_r, Rminus_0_r. apply total_ext. intros e He. apply local_ext. intros. apply bdcalc_rate.
  - intros e _. unfold local_form, mzero. apply sum_0; intros; apply sum_0; intros; ring.
Qed.
(** with the first state as base solution and its load set again it differs from (A' - v B')/B by v B'/B *)
Lemma stiffness_der th es lam f (V : R -> vec) x1 dx1 x y :
  (forall e k l, In e es -> is_derive (fun t => tangent (at_ th f t) lam (V t) e k l) (th f) (tangent_rate th lam f x1 dx1 e k l)) ->
  is_derive (fun t => stiffness (at_ th f t) es lam (V t) x y) (th f) (stiffness_rate th es lam f x1 dx1 x y).
Proof.
  intros H. unfold stiffness, stiffness_rate. apply der_total. intros e He. unfold local_form. apply der_sum. intros k Hk. apply der_sum. intros l Hl.
  apply (der_ext (fun t => (x (nth k (be_dofs e) O) * y (nth l (be_dofs e) O)) * tangent (at_ th f t) lam (V t) e k l) _ (th f)
    ((x (nth k (be_dofs e) O) * y (nth l (be_dofs e) O)) * tangent_rate th lam f x1 dx1 e k l)); [intros; ring|ring|]. apply der_scal. now apply H.
Qed.
Theorem C228_error : forall C th held D rks st A B x1 x2 dx1 f v z (V W : R -> vec) b, bmesh_ok C (mesh_elems rks) -> admissible C z -> bs_sol D = Some (x1, x2) ->
  bassemble false C th D rks = Ok (st, A, B) -> bilinear (n C) B z z <> 0 ->
  (forall e k l, In e (mesh_elems rks) -> is_derive (fun t => tangent (at_ th f t) (bs_l1 D) (V t) e k l) (th f) (tangent_rate th (bs_l1 D) f x1 dx1 e k l)) ->
  is_derive (fun t => (if bs_lin D then stiffness (at_ th f t) (mesh_elems rks) (bs_l1 D) (V t) z z else 0)
                      - stiffness (at_ th f t) (mesh_elems rks) (bs_l2 D) (W t) z z) (th f) b ->
  exists s a, beig_sens false C th held (bs_l1 D) (Some x1) (Some dx1) f (mesh_elems rks) B v z = Ok s /\
    is_derive (fun t => stiffness (at_ th f t) (mesh_elems rks) (bs_l1 D) (V t) z z) (th f) a /\
    s - (a - v * b) / bilinear (n C) B z z = v * b / bilinear (n C) B z z.
Proof.
  intros C th held D rks st A B x1 x2 dx1 f v z V W b K Az S E N H _. eexists _, _. split; [now apply C228_value_partial|]. split; [exact (stiffness_der th (mesh_elems rks) (bs_l1 D) f V x1 dx1 z z H)|]. field. exact N.
Qed.
(** stiffness p - p^2 lambda: the critical load is 1/p *)
Definition one_sys : sys := mkSys 1 1 [] [] (fun _ => false) (fun _ => None) (fun _ => false) None.
Definition nil_term : term := fun _ _ _ _ _ => 0.
Definition nil_dterm : dterm := fun _ _ _ _ _ _ _ => 0.
Definition column : belem := mkBe [0%nat] (fun th lam _ _ _ => th O) nil_term (fun th lam _ _ _ => - (th O * th O) * lam) nil_term
  (fun _ _ _ _ _ _ _ => 1) nil_dterm (fun th lam _ _ _ _ _ => - (2 * th O) * lam) nil_dterm.
Definition unit_data (lin : bool) : bset := bcalls [BData lin 0 1 zero zero].
Lemma column_ok : bmesh_ok one_sys [column].
Proof. split; [|split]; cbn; try discriminate. intros e d [<-|[]] [<-|[]]. lia. Qed.
Lemma all_adm x : admissible one_sys x.
Proof. intros d r H. discriminate. Qed.
Example C226_example : bmesh_ok one_sys (mesh_elems [(false, 5, [column])]) /\ one_each [(false, 5, [column])] /\ ~ one_each [(false, 5, [column; column])] /\
  admissible one_sys (fun _ => 1) /\ stiffness (fun _ => 2) [column] 0 zero (fun _ => 1) (fun _ => 1) = 2.
Proof.
  split; [apply column_ok|]. split; [intros h l es [I|[]]; inversion I; right; auto|]. split; [|split; [apply all_adm|unfold stiffness, total, local_form, tangent; cbn; unfold nil_term; ring]].
  intros H. destruct (H false 5 [column; column] (or_introl eq_refl)) as [I|(_ & I)]; discriminate.
Qed.
Lemma column_forms lin p st A B : bassemble false one_sys (fun _ => p) (unit_data lin) [(false, 0, [column])] = Ok (st, A, B) ->
  forall x y, bilinear 1 A x y = p * x O * y O /\ bilinear 1 B x y = ((if lin then p else 0) - (p - p * p)) * x O * y O.
Proof.
  intros E x y. unfold bassemble in E. change (bs_sol (unit_data lin)) with (Some (zero, zero)) in E. cbv beta iota in E. rewrite run_all in E; [|apply column_ok|now left]. set (ms := mesh_elems _) in E.
  assert (EA : A = fold_left (addA one_sys (fun _ => p) (unit_data lin) zero) ms mzero) by congruence.
  assert (EB : B = fold_left (addB one_sys (fun _ => p) (unit_data lin) zero zero) ms mzero) by congruence. rewrite EA, EB. change (bilinear 1) with (bilinear (n one_sys)).
  rewrite (form_A one_sys (fun _ => p) (unit_data lin) zero ms x y column_ok (all_adm x) (all_adm y)).
  rewrite (form_B one_sys (fun _ => p) (unit_data lin) zero zero ms x y column_ok (all_adm x) (all_adm y)). unfold unit_data, bcalls. cbn [fold_left bcall_step bs_lin bs_l1 bs_l2].
  unfold stiffness, total, local_form, tangent. cbn. unfold nil_term. split; [ring|destruct lin; ring].
Qed.
Example C227_example : forall lin, exists st A B v lam, bassemble false one_sys (fun _ => 2) (unit_data lin) [(false, 0, [column])] = Ok (st, A, B) /\
  pencil_mode one_sys A B v (fun _ => 1) /\ (lin = false -> v <> -1) /\ critical_estimate (unit_data lin) v = Ok lam /\ lam = 1 / 2.
Proof.
  intros lin. eexists _, _, _, (if lin then 1 / 2 else 1), _. split; [reflexivity|]. split.
  - split; [apply all_adm|]. intros y _. change (n one_sys) with 1%nat.
    destruct (column_forms lin 2 _ _ _ eq_refl y (fun _ => 1)) as (Qa & Qb). rewrite Qa, Qb. destruct lin; field.
  - split; [intros ->; lra|]. unfold critical_estimate, unit_data. cbn. destruct lin; [split; [reflexivity|field]|].
    destruct (reqb (1 + 1) 0) eqn:Q; [apply reqb_true in Q; lra|]. split; [reflexivity|field].
Qed.
(** right after the analysis the sensitivity of the eigenvalue 1/p is wrong *)
Theorem C228_wrong_refuted : exists C D th rks st A B v z s, bmesh_ok C (mesh_elems rks) /\ bassemble false C th D rks = Ok (st, A, B) /\ admissible C z /\ st = [(true, 0%nat, 1)] /\
  (forall p, p <> 0 -> exists st' A' B', bassemble false C (at_ th O p) D rks = Ok (st', A', B') /\ pencil_mode C A' B' (v p) z /\ bilinear (n C) B' z z <> 0) /\
  is_derive v (th O) (- (1 / 4)) /\ beig_sens false C th true 1 (Some zero) (Some zero) O (mesh_elems rks) B (v (th O)) z = Ok s /\ s = - (3 / 4).
Proof.
  exists one_sys, (unit_data true), (fun _ => 2), [(false, 0, [column])]. eexists _, _, _, (fun p => / p), (fun _ => 1), _.
  split; [apply column_ok|]. split; [reflexivity|]. split; [apply all_adm|]. split; [reflexivity|]. split; [|split; [|split]].
  - intros p Hp. eexists _, _, _. split; [reflexivity|].
    assert (Q : forall y, bilinear (n one_sys) (fold_left (addA one_sys (at_ (fun _ => 2) 0 p) (unit_data true) zero) [column] mzero) y (fun _ => 1) = p * y O * 1 /\
      bilinear (n one_sys) (fold_left (addB one_sys (at_ (fun _ => 2) 0 p) (unit_data true) zero zero) [column] mzero) y (fun _ => 1) = (p * p) * y O * 1).
    { intros y. rewrite form_A, form_B; try apply column_ok; try apply all_adm. cbn [bs_lin bs_l1 bs_l2 unit_data bcalls fold_left bcall_step].
      unfold stiffness, total, local_form, tangent, at_. cbn. unfold nil_term. split; ring. }
    split.
    + split; [apply all_adm|]. intros y _. etransitivity; [exact (proj1 (Q y))|]. etransitivity; [|symmetry; apply (f_equal (Rmult (/ p))); exact (proj2 (Q y))]. field. exact Hp.
    + intros Z. apply Hp. assert (Z2 : p * p * 1 * 1 = 0) by (etransitivity; [symmetry; exact (proj2 (Q (fun _ => 1)))|exact Z]). nra.
  - auto_derive; [lra|field].
  - apply C228_value_partial; [apply column_ok|apply all_adm].
  - assert (Qb : bilinear (n one_sys) (fold_left (addB one_sys (fun _ => 2) (unit_data true) zero zero) [column] mzero) (fun _ => 1) (fun _ => 1) = 4).
    { rewrite form_B; try apply column_ok; try apply all_adm. cbn [bs_lin bs_l1 bs_l2 unit_data bcalls fold_left bcall_step].
      unfold stiffness, total, local_form, tangent. cbn. unfold nil_term. ring. }
    etransitivity; [apply (f_equal (fun q => _ / q)); exact Qb|]. unfold stiffness_rate, total, local_form, tangent_rate. cbn. unfold nil_dterm. field.
Qed.
(** with assertions it stops: the operations still hold an element of the analysis *)
Theorem C228_held_refuted : forall C th load X dX f e es MB v z, beig_sens true C th true load (Some X) (Some dX) f (e :: es) MB v z = Fault AssertFailed.
Proof. reflexivity. Qed.
Print Assumptions C226_data.
Print Assumptions C226_unset.
Print Assumptions C226_matrices_partial.
Print Assumptions C226_distribution.
Print Assumptions C226_second_refuted.
Print Assumptions C226_leak_refuted.
Print Assumptions C226_hanging_refuted.
Print Assumptions C227_estimate.
Print Assumptions C227_affine.
Print Assumptions C227_complete_partial.
Print Assumptions C227_infinite_refuted.
Print Assumptions C227_division_refuted.
Print Assumptions C228_value_partial.
Print Assumptions C228_error.
Print Assumptions C228_wrong_refuted.
Print Assumptions C228_held_refuted.
