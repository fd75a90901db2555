(** The Jacobian of the coupled system, the solve, and the assembly of a time step. *)
From Coq Require Import Reals.
From Coquelicot Require Import Coquelicot.
From Coq Require Import List Arith Bool Permutation Lia Lra FunctionalExtensionality.
From Verif Require Import Base BaseLemmas Sens_Model Sens_Spec Sens_Proofs Sens_Proofs2 Mph_Model Mph_Spec Mph_Proofs Mph_Proofs2 Mph_Proofs3 Mph_Props.
Import ListNotations.
Open Scope R_scope.

(** ** C198 the Jacobian of the coupled system *)
Lemma sum_pick m i (f g : nat -> R) : (i < m)%nat -> (forall j, (j < m)%nat -> j <> i -> f j = g j) -> sum m f = sum m g + (f i - g i).
Proof.
  intros Hi H. replace (sum m f) with (sum m g + sum m (fun j => f j - g j)) by (rewrite sum_minus; ring).
  rewrite (sum_single m i (fun j => f j - g j)); auto. intros j Hj Ne. rewrite H by auto. ring.
Qed.
(** After the Jacobian was evaluated at x (from any state, i.e. after any history), the product of the nested matrix with a
    direction that respects the constraints is the derivative of the coupled equations in that direction, and neither the
    direction nor the matrices are changed, so that every later product is right too.  Missing: disciplines whose data depend on
    their own solution, and directions that do not respect the constraints. *)
Theorem C198_jacobian_partial : forall np nd loc M D u s x dx y,
  complete nd s D -> update s = Some u ->
  (forall i, (i < nd)%nat -> rows_ok (n_of np loc i) (D i)) ->
  (forall i, (i < nd)%nat -> local_disc (n_of np loc i) (D i)) -> local_updater np nd loc u ->
  (forall i, (i < nd)%nat -> satisfies_hom (n_of np loc i) (D i) (fun k => dx (nth k (index_set np nd loc i) O))) ->
  exists s1 x', snes_jacobian np nd loc s x = Ok (s1, x') /\
    (let X := fun i k => x' (nth k (index_set np nd loc i) O) in
     let dX := fun i k => dx (nth k (index_set np nd loc i) O) in
     (forall i, (i < nd)%nat -> satisfies (n_of np loc i) (D i) (X i)) /\
     ((forall i, (i < nd)%nat -> disc_derivative M (n_of np loc i) (D i) (at_solution u X i) (X i)) ->
      update_derivative M nd u X dX -> no_own_data M nd u X ->
      exists s2 dx' y', nest_mult np nd loc s1 x' dx y = Ok (s2, dx', y') /\
        (forall g, (g < n_all np nd loc)%nat -> dx' g = dx g) /\ mats s2 = mats s1 /\
        forall i k, (i < nd)%nat -> (k < n_of np loc i)%nat ->
          is_derive (fun t => coupled D u (fun j l => X j l + t * dX j l) i k) 0 (y' (nth k (index_set np nd loc i) O)))).
Proof.
  intros np nd loc M D u s x dx y C U R LD LU SH.
  destruct (jacobian_ok np nd loc s D x C R) as (x' & m & E & H & Q).
  eexists _, x'. split; [exact E|]. intros X dX. split.
  { intros i Hi k r c Hk Er. change (X i k) with (subs np nd loc x' i k). rewrite H by auto.
    rewrite (sat_after np nd loc D (subs np nd loc x) R i Hi k r c Hk Er) at 1. f_equal. apply total_ext. intros [j w] Hj. cbn.
    f_equal. symmetry. apply H; auto. apply (R i Hi k r c Er j w Hj). }
  intros DD UD NO.
  destruct (nest_ok np nd loc D u R LD LU x' dx m SH _ y (Logic.conj (C : complete nd (mkM (assem s) (update s) (with_update np nd loc s x') (ddata s) m (sols s) (locals s)) D) (Logic.conj U eq_refl)))
    as (s2 & dx' & y' & E2 & (C2 & U2 & M2) & S2 & Y).
  exists s2, dx', y'. split; [exact E2|]. split; [exact (same_global np nd loc dx' dx S2)|]. split; [exact M2|].
  intros i k Hi Hk.
  eapply der_ext; [reflexivity| |exact (coupled_derive np nd loc D u M X dX DD UD i k Hi Hk)].
  change (y' (nth k (index_set np nd loc i) O)) with (subs np nd loc y' i k). rewrite Y by auto.
  set (own := sum (n_of np loc i) (fun l => d_jac (D i) (at_solution u X i) (X i) k l * dX i l)).
  rewrite (sum_pick nd i _ (fun j => d_lin (D i) (at_solution u X i) (snd (at_perturbed u X (only j (dX j)) i)) (X i) zero k)); auto.
  - assert (B : blk np nd loc D u x' dx m i i k = own).
    { unfold blk. rewrite Nat.eqb_refl. apply sum_ext. intros l Hl. rewrite Q by auto. unfold with_update. rewrite U. reflexivity. }
    rewrite B. destruct (DD i Hi) as (Bm & _ & L). rewrite L by auto.
    assert (Z : sum (n_of np loc i) (fun l => d_jac (D i) (at_solution u X i) (X i) k l * zero l)
       + sum M (fun m => Bm k m * snd (at_perturbed u X (only i (dX i)) i) m) = 0).
    { rewrite !sum_0; [ring| |]; intros a Ha; [rewrite (NO i (dX i) a Hi Ha)|unfold zero]; ring. }
    rewrite Z. ring.
  - intros j Hj Ne. unfold blk. destruct (Nat.eqb_spec i j); [congruence|].
    change (subs np nd loc x') with X. change (subs np nd loc dx j) with (dX j). now rewrite (proj1 UD).
Qed.

(** A discipline whose data are its own solution: residual x - a with a = x. *)
Definition selfish : disc := mkD (fun _ => None) (fun a x k => x k - a k) (fun _ _ k l => if (k =? l)%nat then 1 else 0)
  (fun _ da _ dx k => match k with O => dx O - da O | _ => 0 end).
Definition mirror : updater := mkU (fun X i k => match k with O => X i O | _ => 0 end)
  (fun X dX i => (fun k => match k with O => X i O | _ => 0 end, fun k => match k with O => dX i O | _ => 0 end)).
Lemma selfish_derivative a x : disc_derivative 1 1 selfish a x.
Proof.
  exists (fun _ _ => -1). split.
  - intros pa da p dp _ _ Ha Hp k Hk. assert (k = O) by lia. subst k. cbn.
    apply (der_ext (fun t => p t O - pa t O) _ 0 (dp O - da O)); [reflexivity|ring|]. apply der_minus; [apply Hp|apply Ha]; lia.
  - intros da dx k Hk. assert (k = O) by lia. subst k. cbn. ring.
Qed.
Lemma mirror_derivative X dX : update_derivative 1 1 mirror X dX.
Proof.
  split; [reflexivity|]. intros i m Hi Hm. assert (i = O) by lia. assert (m = O) by lia. subst. cbn. unfold only. cbn.
  auto_derive; auto. ring.
Qed.
(** The part of the derivative that goes through a discipline's own data is missing from the diagonal block. *)
Theorem C198_own_refuted : exists np nd loc M D u s x dx,
  complete nd s D /\ update s = Some u /\ (forall i, (i < nd)%nat -> rows_ok (n_of np loc i) (D i)) /\
  (forall X i, (i < nd)%nat -> disc_derivative M (n_of np loc i) (D i) (at_solution u X i) (X i)) /\
  (forall X dX, update_derivative M nd u X dX) /\
  exists s1 x' s2 dx' y', snes_jacobian np nd loc s x = Ok (s1, x') /\ nest_mult np nd loc s1 x' dx zero = Ok (s2, dx', y') /\
    y' O = 1 /\
    is_derive (fun t => coupled D u (fun j l => x' (nth l (index_set np nd loc j) O) + t * dx (nth l (index_set np nd loc j) O)) O O) 0 0.
Proof.
  exists 1%nat, 1%nat, one, 1%nat, (fun _ => selfish), mirror, (mst0 selfish (Some mirror)), zero, (fun _ => 1).
  split; [intros i _; reflexivity|]. split; [reflexivity|]. split; [intros i _ k r c E; discriminate|].
  split; [intros X i Hi; assert (i = O) by lia; subst; apply selfish_derivative|].
  split; [apply mirror_derivative|]. eexists _, _, _, _, _. split; [reflexivity|]. split; [reflexivity|]. split.
  - cbv -[Rplus Rmult IZR Ropp Rinv Rdiv Rminus]. ring.
  - apply (der_ext (fun _ => 0) _ 0 0); [|reflexivity|apply @is_derive_const]. intros t. unfold coupled, selfish, mirror. cbn. ring.
Qed.
(** Two disciplines with one dof each, fixed. *)
Definition fixed0 : disc := mkD (fun _ => Some ([], 0)) (fun _ x k => x k) (fun _ _ k l => if (k =? l)%nat then 1 else 0) (fun _ _ _ dx k => 0).
(** A product with the nested matrix overwrites its argument, and the nested matrix is singular although the matrix of each
    discipline is the unit matrix and there is no coupling. *)
Theorem C198_overwrites_refuted : exists np nd loc s1 x dx s2 dx' y',
  complete nd s1 (fun _ => fixed0) /\ (forall i k l, mats s1 i k l = if (k =? l)%nat then 1 else 0) /\
  nest_mult np nd loc s1 x dx zero = Ok (s2, dx', y') /\ n_all np nd loc = 2%nat /\
  dx 1%nat = 1 /\ dx' 1%nat = 0 /\ (forall g, (g < 2)%nat -> y' g = 0).
Proof.
  exists 1%nat, 2%nat, one,
    (mkM (fun _ => Some fixed0) (Some idle) (fun _ _ => 0) (fun _ _ => 0) (fun _ k l => if (k =? l)%nat then 1 else 0) (fun _ => zero) (fun _ => zero)),
    zero, (fun g => match g with O => 0 | _ => 1 end).
  eexists _, _, _. split; [intros i _; reflexivity|]. split; [reflexivity|]. split; [reflexivity|]. split; [reflexivity|].
  split; [reflexivity|]. split; [reflexivity|].
  intros [|[|g]] Hg; [| |lia]; cbv -[Rplus Rmult IZR Ropp Rinv Rdiv Rminus]; ring.
Qed.
(** Two coupled disciplines that meet the hypotheses: residuals x0 - x1^2 and x1 - 3 x0. *)
Definition cross_d : disc := mkD (fun _ => None) (fun a x k => match k with O => x O - a O | _ => 0 end)
  (fun _ _ k l => if (k =? l)%nat then 1 else 0)
  (fun _ da _ dx k => match k with O => dx O - da O | _ => 0 end).
Definition cross_u : updater := mkU
  (fun X i k => match k with O => match i with O => X 1%nat O ^ 2 | _ => 3 * X O O end | _ => 0 end)
  (fun X dX i => (fun k => match k with O => match i with O => X 1%nat O ^ 2 | _ => 3 * X O O end | _ => 0 end,
                  fun k => match k with O => match i with O => 2 * X 1%nat O * dX 1%nat O | _ => 3 * dX O O end | _ => 0 end)).
Example C198_example : let s := mst0 cross_d (Some cross_u) in let D := fun _ : nat => cross_d in
  complete 2 s D /\ (forall i, (i < 2)%nat -> rows_ok (n_of 1 one i) (D i)) /\ (forall i, (i < 2)%nat -> local_disc (n_of 1 one i) (D i)) /\
  local_updater 1 2 one cross_u /\ (forall X i, (i < 2)%nat -> disc_derivative 1 1 (D i) (at_solution cross_u X i) (X i)) /\
  (forall X dX, update_derivative 1 2 cross_u X dX) /\ (forall X, no_own_data 1 2 cross_u X).
Proof.
  cbv zeta. split; [intros i _; reflexivity|]. split; [intros i _ k r c E; discriminate|].
  assert (one_n : forall i, n_of 1 one i = 1%nat) by reflexivity.
  split.
  { intros i Hi. rewrite one_n. repeat split.
    - intros a x x' H k Hk. cbn. assert (k = O) by lia. subst k. now rewrite H by lia.
    - intros a da x x' dx dx' H G k Hk. cbn. assert (k = O) by lia. subst k. now rewrite G by lia. }
  split.
  { split.
    - intros X Y i H. apply functional_extensionality. intros [|k]; [|reflexivity]. cbn. destruct i as [|i].
      + rewrite (H 1%nat O); [reflexivity|lia|rewrite one_n; lia].
      + rewrite (H O O); [reflexivity|lia|rewrite one_n; lia].
    - intros X Y dX dY i H G. assert (A : X 1%nat O = Y 1%nat O) by (apply H; [lia|rewrite one_n; lia]). assert (B : X O O = Y O O) by (apply H; [lia|rewrite one_n; lia]).
      assert (A' : dX 1%nat O = dY 1%nat O) by (apply G; [lia|rewrite one_n; lia]). assert (B' : dX O O = dY O O) by (apply G; [lia|rewrite one_n; lia]).
      cbn. now rewrite A, B, A', B'. }
  split.
  { intros X i Hi. exists (fun _ _ => -1). split.
    - intros pa da p dp _ _ Ha Hp k Hk. assert (k = O) by lia. subst k. cbn.
      apply (der_ext (fun t => p t O - pa t O) _ 0 (dp O - da O)); [reflexivity|ring|]. apply der_minus; [apply Hp|apply Ha]; lia.
    - intros da dx k Hk. assert (k = O) by lia. subst k. cbn. ring. }
  split.
  { intros X dX. split; [reflexivity|]. intros i m Hi Hm. assert (m = O) by lia. subst m. destruct i as [|[|i]]; [| |lia]; unfold only; cbn; unfold zero.
    - auto_derive; auto. ring.
    - auto_derive; auto. ring. }
  intros X i v m Hi Hm. assert (m = O) by lia. subst m. destruct i as [|[|i]]; [| |lia]; unfold only; cbn; unfold zero; ring.
Qed.

(** ** C199 the coupled solve *)
(** The solver starts from the solutions of the disciplines and stores the blocks of the final vector in them; a discipline may be
    set once, all have to be set. *)
Theorem C199_solve : forall np nd loc snes s x0,
  ((exists s', solve np nd loc snes s x0 = Ok s') <-> (0 < nd)%nat /\ forall i, (i < nd)%nat -> assem s i <> None) /\
  (forall s', solve np nd loc snes s x0 = Ok s' ->
     exists x xf, (forall i k, (i < nd)%nat -> (k < n_of np loc i)%nat -> x (nth k (index_set np nd loc i) O) = sols s i k) /\
       xf = fst (fst (fst (snes s x))) /\
       (forall i k, (i < nd)%nat -> (k < n_of np loc i)%nat -> sols s' i k = xf (nth k (index_set np nd loc i) O)) /\
       assem s' = assem s /\ update s' = update s) /\
  (forall i d, (exists s', set_system_assembly nd i d s = Ok s' /\ assem s' i = Some d /\ forall j, j <> i -> assem s' j = assem s j)
     <-> (i < nd)%nat /\ assem s i = None).
Proof.
  intros np nd loc snes s x0. split; [|split].
  - unfold solve. destruct (forallb _ (seq 0 nd)) eqn:F.
    + assert (A : forall i, (i < nd)%nat -> assem s i <> None).
      { intros i Hi. rewrite forallb_forall in F. specialize (F i). rewrite in_seq in F. specialize (F ltac:(lia)). destruct (assem s i); congruence. }
      destruct (Nat.eqb_spec nd 0) as [->|Ne].
      * split; [intros [s' E]; discriminate|intros [H _]; lia].
      * split; [intros _; split; [lia|auto]|]. intros _. destruct (snes s _) as [[[x a] da] m]. eauto.
    + split; [intros [s' E]; discriminate|]. intros [H A]. exfalso. rewrite <- not_true_iff_false in F. apply F.
      apply forallb_forall. intros i Hi. apply in_seq in Hi. specialize (A i ltac:(lia)). destruct (assem s i); congruence.
  - intros s' E. unfold solve in E. destruct (forallb _ _); [|discriminate]. destruct (Nat.eqb_spec nd 0); [discriminate|].
    exists (copy_in np nd loc (sols s) x0), (fst (fst (fst (snes s (copy_in np nd loc (sols s) x0))))).
    destruct (snes s (copy_in np nd loc (sols s) x0)) as [[[x a] da] m] eqn:Es. injection E as <-. cbn [fst].
    split; [intros i k Hi Hk; apply (copy_in_sub np nd loc (sols s) x0 i k Hi Hk)|]. split; [reflexivity|].
    split; [|split; reflexivity]. intros i k Hi Hk. cbn [sols]. rewrite copy_out_at by auto.
    destruct (Nat.ltb_spec k (n_of np loc i)); [reflexivity|lia].
  - intros i d. unfold set_system_assembly. destruct (Nat.ltb_spec i nd); cbn.
    + destruct (assem s i) eqn:A; [split; [intros (s' & E & _); discriminate|intros [_ E]; discriminate]|].
      split; [auto|]. intros _. eexists. split; [reflexivity|]. cbn. split; [apply upd_same|]. intros j Ne. now apply upd_other.
    + split; [intros (s' & E & _); discriminate|intros [E _]; lia].
Qed.
(** If the final vector solves the coupled equations as the residual callback sees them, the stored solutions do. *)
Theorem C199_solution : forall np nd loc D u snes s x0 s', complete nd s D -> update s = Some u ->
  (forall i, (i < nd)%nat -> rows_ok (n_of np loc i) (D i)) -> (forall i, (i < nd)%nat -> local_disc (n_of np loc i) (D i)) ->
  local_updater np nd loc u -> solve np nd loc snes s x0 = Ok s' ->
  (forall x, let xf := fst (fst (fst (snes s x))) in
     (forall i, (i < nd)%nat -> satisfies (n_of np loc i) (D i) (fun k => xf (nth k (index_set np nd loc i) O))) /\
     forall r s1 x1 r1 norms l2, snes_residual np nd loc s xf r = Ok (s1, x1, r1, norms, l2) -> l2 = 0) ->
  forall i k, (i < nd)%nat -> (k < n_of np loc i)%nat -> coupled D u (sols s') i k = 0.
Proof.
  intros np nd loc D u snes s x0 s' C U R LD LU E H i k Hi Hk.
  destruct (proj1 (proj2 (C199_solve np nd loc snes s x0)) s' E) as (x & xf & _ & -> & S & _).
  specialize (H x). cbv zeta in H. set (xf := fst (fst (fst (snes s x)))) in *. destruct H as [SA H].
  destruct (C197_residual np nd loc s D u xf zero C R LD LU U) as (s1 & x1 & r1 & norms & Er & (A & _ & _) & _).
  assert (Z := H _ _ _ _ _ _ Er). apply sqrt_eq_0 in Z; [|apply sum_nonneg; intros; apply pow2_ge_0].
  assert (Q : forall g, (g < n_all np nd loc)%nat -> r1 g = 0).
  { clear -Z. induction (n_all np nd loc) as [|m IH]; intros g Hg; [lia|]. cbn [sum] in Z.
    assert (P : 0 <= sum m (fun g => r1 g ^ 2)) by (apply sum_nonneg; intros; apply pow2_ge_0).
    assert (P' := pow2_ge_0 (r1 m)). destruct (Nat.eq_dec g m) as [->|Ne].
    - assert (W : r1 m ^ 2 = 0) by lra. now apply Rsqr_eq_0; unfold Rsqr; rewrite <- W; ring.
    - apply IH; [lra|lia]. }
  specialize (A i k Hi Hk). rewrite Q in A.
  2:{ apply (set_range np nd loc i); auto. apply nth_In. now rewrite set_length. }
  rewrite A. unfold coupled.
  assert (SM : same np nd loc (sols s') (constrained_sols D (fun i k => xf (nth k (index_set np nd loc i) O)))).
  { intros j l Hj Hl. rewrite S by auto. unfold constrained_sols. destruct (d_row (D j) l) as [[r c]|] eqn:El; auto. exact (SA j Hj l r c Hl El). }
  rewrite (proj1 LU _ _ i SM). apply (LD i Hi); auto.
Qed.
(** The local (ghosted) copies of the solutions, from which the disciplines are evaluated elsewhere, are not updated. *)
Theorem C199_local_refuted : exists np nd loc snes s x0 s', complete nd s (fun _ => cross_d) /\ sols s O O = locals s O O /\
  solve np nd loc snes s x0 = Ok s' /\ sols s' O O <> locals s' O O.
Proof.
  exists 1%nat, 1%nat, one, (fun s _ => (fun _ => 5, data s, ddata s, mats s)), (mst0 cross_d (Some cross_u)), zero. eexists.
  split; [intros i _; reflexivity|]. split; [reflexivity|]. split; [reflexivity|]. cbv -[Rplus Rmult IZR Ropp Rinv Rdiv Rminus]. lra.
Qed.
(** The return of solve() says nothing about convergence: whatever vector SNES ends with is stored. *)
Theorem C199_convergence_refuted : forall np nd loc D u s x0, (0 < nd)%nat -> complete nd s D -> update s = Some u ->
  (forall i, (i < nd)%nat -> rows_ok (n_of np loc i) (D i)) -> (forall i, (i < nd)%nat -> local_disc (n_of np loc i) (D i)) ->
  local_updater np nd loc u -> forall bad, (exists i k, (i < nd)%nat /\ (k < n_of np loc i)%nat /\
     coupled D u (fun i k => bad (nth k (index_set np nd loc i) O)) i k <> 0) ->
  exists snes s', solve np nd loc snes s x0 = Ok s' /\ exists i k, (i < nd)%nat /\ (k < n_of np loc i)%nat /\ coupled D u (sols s') i k <> 0.
Proof.
  intros np nd loc D u s x0 P C U R LD LU bad (i & k & Hi & Hk & B).
  set (snes := fun (s : mst) (_ : vec) => (bad, data s, ddata s, mats s)). exists snes.
  destruct (C199_solve np nd loc snes s x0) as ([_ T] & S & _).
  destruct T as [s' E]; [split; auto; intros j Hj; rewrite (C j Hj); discriminate|].
  exists s'. split; [exact E|]. exists i, k. split; [auto|]. split; [auto|].
  destruct (S s' E) as (x & xf & _ & -> & Q & _). cbn in Q.
  assert (SM : same np nd loc (sols s') (fun i k => bad (nth k (index_set np nd loc i) O))) by (intros j l Hj Hl; now apply Q).
  intros Z. apply B. rewrite <- Z. unfold coupled. rewrite (proj1 LU _ _ i SM). apply (LD i Hi); auto. intros l Hl. symmetry. now apply SM.
Qed.

(** ** C200 residual and Jacobian of a time step *)
Theorem C200_residual : forall T th prev X wj, t_post T = None ->
  exists r j, residual_and_jacobian T th true wj prev X = Ok (Some r, j) /\
    forall i, r i = if constrained (t_cons T) i then 0 else step_residual T th prev X i.
Proof.
  intros T th prev X wj P. unfold residual_and_jacobian. cbn [negb andb]. rewrite P. eexists _, _. split; [reflexivity|]. intros i. apply res_at.
Qed.
(** With a post assembly operation the residual is what the operation makes of it. *)
Theorem C200_post : forall T th prev X p, t_post T = Some p ->
  exists r j, residual_and_jacobian T th true true prev X = Ok (Some (post_r p X r), Some (post_j p X j)) /\
    residual_and_jacobian (mkT (t_cons T) (t_ranks T) (t_scheme T) None) th true true prev X = Ok (Some r, Some j).
Proof. intros T th prev X p P. unfold residual_and_jacobian. cbn [negb andb]. rewrite P. eexists _, _. split; reflexivity. Qed.
(** The Jacobian is the derivative of the equations of the step, in every direction that respects the constraints. *)
Theorem C200_jacobian : forall T th prev X wr, t_post T = None -> step_ok T ->
  exists r j, residual_and_jacobian T th wr true prev X = Ok (r, Some j) /\
    forall y i, (i < n (t_cons T))%nat -> admissible (t_cons T) y -> row (t_cons T) i = None ->
      (forall e, In e (step_elems T) -> step_jacobian th (t_scheme T) prev e (gather (tdofs e) X)) ->
      is_derive (fun t => step_residual T th prev (fun d => X d + t * y d) i) 0 (sum (n (t_cons T)) (fun l => j i l * y l)).
Proof.
  intros T th prev X wr P O. unfold residual_and_jacobian. rewrite andb_false_r. cbn [andb]. rewrite P. eexists _, _. split; [reflexivity|].
  intros y i Hi A E J. now apply jac_derive.
Qed.
(** The residual does not depend on how the elements are distributed over the processes. *)
Theorem C200_distribution : forall T T' th prev X r r' j j', t_post T = None -> t_post T' = None -> t_cons T' = t_cons T ->
  t_scheme T' = t_scheme T -> Permutation (step_elems T) (step_elems T') ->
  residual_and_jacobian T th true true prev X = Ok (Some r, Some j) -> residual_and_jacobian T' th true true prev X = Ok (Some r', Some j') ->
  (forall i, r i = r' i) /\ (forall a b, j a b = j' a b).
Proof.
  intros T T' th prev X r r' j j' P P' C S E H H'. unfold residual_and_jacobian in H, H'. cbn [negb andb] in H, H'. rewrite P in H. rewrite P' in H'.
  injection H as <- <-. injection H' as <- <-. split.
  - intros i. rewrite !res_at, C. destruct (constrained _ i); auto. unfold step_residual. rewrite C, S. now apply total_perm.
  - intros a b. rewrite !jac_at, !jacobian_eq, !as_elements, S. unfold total. rewrite !map_map.
    rewrite (lsum_perm _ _ (Permutation_map _ E)). f_equal. apply map_ext. intros e. unfold mctr, constrained, coef.
    change (row (as_sys T prev)) with (row (t_cons T)). change (row (as_sys T' prev)) with (row (t_cons T')). now rewrite C.
Qed.
(** Asked for neither, it stops at the first element. *)
Theorem C200_nothing : forall T th prev X, (exists r, residual_and_jacobian T th false false prev X = Ok r) <->
  forall e, In e (step_elems T) -> tdofs e = [].
Proof.
  intros T th prev X. unfold residual_and_jacobian. cbn [negb andb]. fold (step_elems T). destruct (existsb _ _) eqn:E.
  - split; [intros [r H]; discriminate|]. intros H. apply existsb_exists in E. destruct E as (e & He & Q). rewrite (H e He) in Q. discriminate.
  - split; [|eauto]. intros _ e He. destruct (tdofs e) eqn:Q; auto. exfalso. rewrite <- not_true_iff_false in E. apply E.
    apply existsb_exists. exists e. split; auto. now rewrite Q.
Qed.

(** ** C201 the product without a matrix *)
Theorem C201_product_partial : forall T th prev X dX r j, t_post T = None -> step_ok T -> admissible (t_cons T) dX ->
  (forall e, In e (step_elems T) -> step_product th (t_scheme T) prev e (gather (tdofs e) X)) ->
  residual_and_jacobian T th false true prev X = Ok (r, Some j) ->
  forall i, (i < n (t_cons T))%nat -> linearized_product T th prev X dX i = sum (n (t_cons T)) (fun l => j i l * dX l).
Proof.
  intros T th prev X dX r j P O A S E i Hi. unfold residual_and_jacobian in E. cbn [negb andb] in E. rewrite P in E. injection E as _ <-.
  now apply product_at.
Qed.
(** A bar: x - 2 v with v = (x - x_old) / (1/2). *)
Definition bar : telem := mkTe [0%nat; 1%nat]
  (fun _ q k => q 0%nat k + 3 * q 1%nat k) (fun _ _ k l => if (k =? l)%nat then 7 else 0)
  (fun _ _ dq k => dq 0%nat k + 3 * dq 1%nat k) (fun _ _ _ _ => 0) (fun _ _ dp k => -6 * dp 0%nat k).
Definition euler : scheme := mkScheme 1 (fun k => match k with O => 1 | _ => 2 end) (fun k m => match k, m with 1%nat, O => -2 | _, _ => 0 end).
Definition bar_sys (r : nat -> option (list (nat * R))) (p : option post) : tsys :=
  mkT (mkSys 2 1 [] [] (fun _ => false) r (fun _ => false) None) [[bar]] euler p.
Definition tied_row : nat -> option (list (nat * R)) := fun k => match k with 1%nat => Some [(0%nat, 1)] | _ => None end.
Lemma bar_state th prev x : step_product th euler prev bar x /\ step_jacobian th euler prev bar x.
Proof.
  split.
  - intros y k Hk. cbn in Hk. destruct k as [|[|k]]; [| |lia]; cbn; ring.
  - intros p dp _ Hp k Hk. cbn in Hk.
    assert (D : is_derive (fun t => p t k) 0 (dp k)) by (apply Hp; cbn; lia).
    apply (der_ext (fun t => plus (scal 7 (p t k)) (-6 * prev O (dof [0%nat; 1%nat] k))) _ 0 (plus (scal 7 (dp k)) 0)).
    + intros t. cbn. unfold plus, scal, step_state; cbn. unfold mult; cbn. ring.
    + destruct k as [|[|k]]; [| |lia]; cbn; unfold plus, scal; cbn; unfold mult; cbn; ring.
    + apply @is_derive_plus; [|apply @is_derive_const]. apply @is_derive_scal. exact D.
Qed.
Example C201_example : let T := bar_sys tied_row None in
  step_ok T /\ admissible (t_cons T) (fun _ => 1) /\ (forall th prev X e, In e (step_elems T) ->
     step_product th (t_scheme T) prev e (gather (tdofs e) X) /\ step_jacobian th (t_scheme T) prev e (gather (tdofs e) X)) /\
  linearized_product T (fun _ => 0) (fun _ _ => 0) zero (fun _ => 1) O = 14.
Proof.
  cbv zeta. split; [|split; [|split]].
  - split.
    + intros e d [<-|[]] [<-|[<-|[]]]; cbn; lia.
    + intros d r j c E H. cbn in E. destruct d as [|[|d]]; try discriminate. injection E as <-. destruct H as [H|[]]. injection H as <- <-.
      split; [cbn; lia|reflexivity].
  - intros i r Hi E. cbn in E. destruct i as [|[|i]]; try discriminate. injection E as <-. cbn. ring.
  - intros th prev X e [<-|[]]. apply bar_state.
  - cbv -[Rplus Rmult IZR Ropp Rinv Rdiv Rminus]. ring.
Qed.
(** For a direction that does not respect the constraints the two products differ: ... *)
Theorem C201_inadmissible_refuted : exists T th prev X dX r j, t_post T = None /\ step_ok T /\
  (forall e, In e (step_elems T) -> step_product th (t_scheme T) prev e (gather (tdofs e) X)) /\
  residual_and_jacobian T th false true prev X = Ok (r, Some j) /\ (0 < n (t_cons T))%nat /\
  linearized_product T th prev X dX O <> sum (n (t_cons T)) (fun l => j O l * dX l).
Proof.
  exists (bar_sys tied_row None), (fun _ => 0), (fun _ _ => 0), zero, (fun d => match d with O => 1 | _ => 0 end). eexists _, _.
  split; [reflexivity|]. split; [apply C201_example|]. split; [intros e [<-|[]]; apply bar_state|]. split; [reflexivity|]. split; [cbn; lia|].
  cbv -[Rplus Rmult IZR Ropp Rinv Rdiv Rminus]. lra.
Qed.
(** ... and what a post assembly operation adds to the residual and the Jacobian is missing. *)
Theorem C201_post_refuted : exists T th prev X dX r j, step_ok T /\ admissible (t_cons T) dX /\
  (forall e, In e (step_elems T) -> step_product th (t_scheme T) prev e (gather (tdofs e) X)) /\
  residual_and_jacobian T th false true prev X = Ok (r, Some j) /\
  (forall X, exists r', residual_and_jacobian T th true false prev X = Ok (Some r', None) /\ r' O = 7 * X O - 6 * prev O O + 5 * X O) /\
  (0 < n (t_cons T))%nat /\ sum (n (t_cons T)) (fun l => j O l * dX l) = 12 /\ linearized_product T th prev X dX O = 7.
Proof.
  set (p := mkPost (fun X r i => r i + 5 * X i) (fun X j a b => j a b + if (a =? b)%nat then 5 else 0)).
  exists (bar_sys (fun _ => None) (Some p)), (fun _ => 0), (fun _ _ => 0), zero, (fun _ => 1). eexists _, _.
  split; [split; [intros e d [<-|[]] [<-|[<-|[]]]; cbn; lia|intros; discriminate]|].
  split; [intros i r Hi E; discriminate|]. split; [intros e [<-|[]]; apply bar_state|]. split; [reflexivity|].
  split; [intros X; eexists; split; [reflexivity|]; cbv -[Rplus Rmult IZR Ropp Rinv Rdiv Rminus]; ring|]. split; [cbn; lia|].
  split; cbv -[Rplus Rmult IZR Ropp Rinv Rdiv Rminus]; ring.
Qed.

(** ** C202 sensitivity of a time step *)
(** The right hand side of the sensitivity problem is the derivative of the equations of the step with respect to the parameter,
    with the new unknowns held fixed and the last step following the parameter. *)
Theorem C202_sensitivity : forall T th f prev dprev X (pv : R -> quants), 
  (forall m d, pv (th f) m d = prev m d) ->
  (forall m d, is_derive (fun t => pv t m d) (th f) (dprev m d)) ->
  (forall e, In e (step_elems T) -> step_sensitivity th f (t_scheme T) prev dprev e (gather (tdofs e) X)) ->
  forall i, (row (t_cons T) i = None ->
      is_derive (fun t => step_residual T (at_ th f t) (pv t) X i) (th f) (sensitivity_assemble T th f prev dprev X i)) /\
    (row (t_cons T) i <> None -> sensitivity_assemble T th f prev dprev X i = 0).
Proof.
  intros T th f prev dprev X pv P0 P1 S i. rewrite sens_at. unfold constrained. split; intros E.
  - rewrite E. unfold step_residual.
    apply (der_total (step_elems T) (fun e t => part (t_cons T) (tdofs e)
       (t_res e (at_ th f t) (step_state (t_scheme T) (pv t) (tdofs e) (gather (tdofs e) X))) i)).
    intros e He. apply der_part. intros k Hk. apply (S e He); auto.
  - destruct (row (t_cons T) i); congruence.
Qed.
Example C202_example : forall X dprev, step_sensitivity (fun _ => 0) O euler (fun _ _ => 0) dprev bar (gather (tdofs bar) X).
Proof.
  intros X dprev pv P0 P1 k Hk. cbn in Hk.
  assert (D : is_derive (fun t => pv t O (dof [0%nat; 1%nat] k)) 0 (dprev O (dof [0%nat; 1%nat] k))) by (apply (P1 O k); cbn; lia).
  apply (der_ext (fun t => plus (7 * X (dof [0%nat; 1%nat] k)) (scal (-6) (pv t O (dof [0%nat; 1%nat] k)))) _ 0
     (plus 0 (scal (-6) (dprev O (dof [0%nat; 1%nat] k))))).
  - intros t. cbn. unfold plus, scal, step_state, gather; cbn. unfold mult; cbn. ring.
  - cbn. unfold plus, scal; cbn. unfold mult; cbn. ring.
  - apply @is_derive_plus; [apply @is_derive_const|]. apply @is_derive_scal. exact D.
Qed.

Print Assumptions C196_partition.
Print Assumptions C196_local.
Print Assumptions C196_roundtrip.
Print Assumptions C197_residual.
Print Assumptions C197_argument_partial.
Print Assumptions C197_missing.
Print Assumptions C197_argument_refuted.
Print Assumptions C198_jacobian_partial.
Print Assumptions C198_own_refuted.
Print Assumptions C198_overwrites_refuted.
Print Assumptions C199_solve.
Print Assumptions C199_solution.
Print Assumptions C199_local_refuted.
Print Assumptions C199_convergence_refuted.
Print Assumptions C200_residual.
Print Assumptions C200_jacobian.
Print Assumptions C200_distribution.
Print Assumptions C200_nothing.
Print Assumptions C201_product_partial.
Print Assumptions C201_inadmissible_refuted.
Print Assumptions C201_post_refuted.
Print Assumptions C202_sensitivity.
