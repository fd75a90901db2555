From Coq Require Import Reals.
From Coquelicot Require Import Coquelicot.
From Coq Require Import List Arith Bool Permutation Lia Lra.
From Verif Require Import Base BaseLemmas RBool Sens_Model Sens_Spec Sens_Proofs Sens_Proofs2 Lna_Model Lna_Spec Lna_Proofs Lna_Proofs2 Lna_Props.
Import ListNotations.
Open Scope R_scope.

(** ** C215 output and its derivative *)
(** The output is the sum over the material that counts and, if asked for, over the void; void dofs of condensed elements
    have their stored values. *)
Theorem C215_output : forall A th X,
  (la_set A = true -> lcalculate_output A th X = Ok (total (fun e => cell_output A th (elem_solution A X e) e) (cells A))) /\
  (la_set A = true -> unfactored A -> lcalculate_output A th X = Ok (cut_output A th X)) /\
  (la_set A = false -> lcalculate_output A th X = Fault AssertFailed).
Proof.
  intros A th X. unfold lcalculate_output, assert_. split; [|split]; intros L; rewrite L; auto.
  - now rewrite lout_eq.
  - intros U. rewrite lout_eq. unfold cut_output. f_equal. apply total_ext. intros e He. unfold elem_solution. now rewrite (U e He).
Qed.
Lemma share_pieces A th x e : cell_output A th x e = total (fun p => pc_q p th x) (counted_pieces A th e).
Proof.
  unfold cell_output, counted_pieces. rewrite total_app. destruct (la_low A), (takes A th e); unfold total; cbn [map lsum fold_right]; ring.
Qed.
Lemma outd_rows A th e x rows voids l : condensed A e = true -> condenses e rows voids (transp (homog_jac th e x)) ->
  forall s k, ~ In k rows -> fold_left (outd_piece A th e x) l s k = s k.
Proof.
  intros U Co. induction l as [|p l IH]; intros s k Hk; cbn [fold_left]; auto. rewrite IH by auto.
  unfold outd_piece. change (factored A e) with (condensed A e). rewrite U, mscale_homog.
  destruct Co as (P & W & I & H). destruct (H (pc_qx p th x)) as (juu & ru & E & _). rewrite E. unfold vplus.
  rewrite place_out; auto; [ring|]. exact (nodup_l _ _ (perm_nodup _ _ _ P)).
Qed.
(** The vector is the gradient of the output: its product with an admissible direction is the derivative of the output
    along the paths of the elements' unknowns, where the void of condensed elements follows the material. *)
Theorem C215_derivative_partial : forall A th X y (q : lcell -> R -> vec) (dx : lcell -> vec), la_set A = true -> cells_ok A -> admissible (la_cons A) y ->
  (forall e, In e (cells A) ->
     (forall k, (k < length (lc_dofs e))%nat -> q e 0 k = elem_solution A X e k) /\
     (forall k, (k < length (lc_dofs e))%nat -> is_derive (fun t => q e t k) 0 (dx e k)) /\
     (condensed A e = false -> forall k, (k < length (lc_dofs e))%nat -> dx e k = gather (lc_dofs e) y k) /\
     (condensed A e = true -> (la_low A = true -> lc_lo e th = []) /\
        exists rows voids, condenses e rows voids (transp (homog_jac th e (elem_solution A X e))) /\
          void_follows th e voids (elem_solution A X e) (dx e) /\ forall k, In k rows -> dx e k = gather (lc_dofs e) y k) /\
     (forall p, In p (counted_pieces A th e) -> piece_gradient th (length (lc_dofs e)) p (elem_solution A X e))) ->
  exists g, lcalculate_output_derivative A th X = Ok g /\
    (forall i, row (la_cons A) i <> None -> g i = 0) /\
    is_derive (fun t => total (fun e => cell_output A th (q e t) e) (cells A)) 0 (sum (n (la_cons A)) (fun i => g i * y i)).
Proof.
  intros A th X y q dx L K Ad H. unfold lcalculate_output_derivative. rewrite L. cbn [negb andb]. eexists. split; [reflexivity|]. split.
  { intros i Ri. rewrite loutd_eq. apply total_0. intros e _. unfold ctr, constrained. destruct (row (la_cons A) i); congruence. }
  set (C := la_cons A).
  apply (der_ext (fun t => total (fun e => cell_output A th (q e t) e) (cells A)) _ 0
    (total (fun e => total (fun p => sum (length (lc_dofs e)) (fun k => pc_qx p th (elem_solution A X e) k * dx e k)) (counted_pieces A th e)) (cells A))).
  - reflexivity.
  - transitivity (total (fun e => sum (n C) (fun i => ctr C (lc_dofs e) (outd_vec A th X e) i * y i)) (cells A)).
    { rewrite total_sum. apply sum_ext. intros i _. rewrite loutd_eq, Rmult_comm, <- total_scal. apply total_ext. intros; unfold C; ring. }
    apply total_ext. intros e He. unfold C. rewrite (vec_adm A K) by (auto; intros; now apply (proj1 K e)).
    destruct (H e He) as (_ & _ & Hu & Hf & _). destruct (condensed A e) eqn:U.
    + destruct (Hf eq_refl) as (Lo & rows & voids & Co & Vf & Er).
      transitivity (sum (length (lc_dofs e)) (fun k => (if takes A th e then fold_left (outd_piece A th e (elem_solution A X e)) (lc_hi e th) zero k else 0) * dx e k)).
      * apply sum_ext. intros k Hk. unfold outd_vec.
        replace (if la_low A then total _ (lc_lo e th) else 0) with 0 by (destruct (la_low A); [rewrite Lo by auto; reflexivity|reflexivity]).
        rewrite Rplus_0_l. destruct (takes A th e); [|ring]. destruct (existsb (Nat.eqb k) rows) eqn:Q.
        -- apply in_existsb in Q. now rewrite Er.
        -- rewrite (outd_rows A th e _ rows voids) by (auto; intros I; apply in_existsb in I; congruence). unfold zero. ring.
      * unfold counted_pieces. rewrite total_app.
        replace (total _ (if la_low A then lc_lo e th else [])) with 0 by (destruct (la_low A); [rewrite Lo by auto; reflexivity|reflexivity]).
        rewrite Rplus_0_l. destruct (takes A th e).
        -- rewrite (outd_factored A th e _ _ rows voids) by auto. rewrite (sum_0 _ (fun k => zero k * _)) by (intros; unfold zero; ring). ring.
        -- unfold total; cbn [map lsum fold_right]. apply sum_0. intros; ring.
    + rewrite total_sum. apply sum_ext. intros k Hk. rewrite (outd_unfactored A th X e k U), (Hu eq_refl k Hk).
      rewrite Rmult_comm, <- total_scal. apply total_ext. intros p _. unfold elem_solution. rewrite U. ring.
  - apply (der_total _ (fun e t => cell_output A th (q e t) e)). intros e He. destruct (H e He) as (Q0 & Q1 & _ & _ & G).
    apply (der_ext (fun t => total (fun p => pc_q p th (q e t)) (counted_pieces A th e)) _ 0
      (total (fun p => sum (length (lc_dofs e)) (fun k => pc_qx p th (elem_solution A X e) k * dx e k)) (counted_pieces A th e))).
    + intros t. apply share_pieces.
    + reflexivity.
    + apply (der_total _ (fun p t => pc_q p th (q e t))). intros p Hp. apply (G p Hp (q e) (dx e)); auto.
Qed.
(** Without condensed elements: the derivative along every admissible line. *)
Corollary C215_plain : forall A th X y, la_set A = true -> unfactored A -> cells_ok A -> admissible (la_cons A) y ->
  (forall e p, In e (cells A) -> In p (counted_pieces A th e) -> piece_gradient th (length (lc_dofs e)) p (gather (lc_dofs e) X)) ->
  exists g, lcalculate_output_derivative A th X = Ok g /\
    is_derive (fun t => cut_output A th (fun d => X d + t * y d)) 0 (sum (n (la_cons A)) (fun i => g i * y i)).
Proof.
  intros A th X y L U K Ad G.
  destruct (C215_derivative_partial A th X y (fun e t => gather (lc_dofs e) (fun d => X d + t * y d)) (fun e => gather (lc_dofs e) y) L K Ad) as (g & E & _ & D).
  - intros e He. unfold elem_solution. rewrite (U e He). split; [intros; apply line_0|]. split; [intros; apply der_line|]. split; [auto|]. split; [discriminate|].
    intros p Hp. now apply (G e).
  - exists g. split; auto.
Qed.
(** An element with a material dof (0) and a void dof (1); homogenised stiffness [[3, -1], [-1, 1]], so that the void dof
    takes the value of the material dof; the output is x0 + 2 x1. *)
Definition schur2 : matrix -> vec -> list nat * matrix * vec :=
  fun m v => ([0%nat], fun _ _ => m O O - m O 1%nat * / m 1%nat 1%nat * m 1%nat O, fun _ => v O - m O 1%nat * / m 1%nat 1%nat * v 1%nat).
Definition two (low : bool) : piece := mkPiece
  (fun _ x k => match k with O => 6 * x O - 2 * x 1%nat | _ => - 2 * x O + 2 * x 1%nat end)
  (fun _ _ k l => match k, l with O, O => 6 | O, _ => -2 | _, O => -2 | _, _ => 2 end)
  (fun _ _ _ _ => 0) false (fun _ _ _ _ => 0)
  (fun _ x => x O + 2 * x 1%nat) (fun _ _ k => match k with O => 1 | _ => 2 end) (fun _ _ _ dx => dx O + 2 * dx 1%nat) (fun _ _ _ => 0).
Definition bonded (hi lo : bool) : lcell := mkLcell [0%nat; 1%nat] [1] (fun _ => false) (fun _ => true)
  (fun _ => if hi then [two false] else []) (fun _ => if lo then [two true] else []) (fun _ => 1 / 2) (two false) true (fun x _ => x O) schur2.
Definition asm2 (low : bool) (l : list lcell) : lna := mkLna (free_sys 2) [l] true false low true (fun _ => false) true None false.
Lemma bonded_condenses h l th x : condenses (bonded h l) [0%nat] [1%nat] (homog_jac th (bonded h l) x) /\
  condenses (bonded h l) [0%nat] [1%nat] (transp (homog_jac th (bonded h l) x)) /\
  void_follows th (bonded h l) [1%nat] x (fun _ => 1) /\ (x O = x 1%nat -> homog_res th (bonded h l) x 1 = 0).
Proof.
  assert (G : forall M : matrix, M 1%nat 1%nat <> 0 -> condenses (bonded h l) [0%nat] [1%nat] M).
  { intros M N. split; [reflexivity|]. exists (fun _ _ => / M 1%nat 1%nat). split.
    - intros a b Ha Hb. cbn in Ha, Hb. assert (a = O) by lia. assert (b = O) by lia. subst. cbn. unfold delta, void_block; cbn. split; field; auto.
    - intros v. eexists _, _. split; [reflexivity|]. split.
      + intros i Hi. cbn in Hi. assert (i = O) by lia. subst. cbn. ring.
      + intros i j Hi Hj. cbn in Hi, Hj. assert (i = O) by lia. assert (j = O) by lia. subst. cbn. ring. }
  split; [|split; [|split]].
  - apply G. cbn. unfold homog_jac; cbn. lra.
  - apply G. unfold transp, homog_jac; cbn. lra.
  - intros b Hb. cbn in Hb. assert (b = O) by lia. subst. cbn. unfold homog_jac; cbn. lra.
  - intros E. unfold homog_res; cbn. rewrite E. lra.
Qed.
Lemma two_gradient b th x : piece_gradient th 2 (two b) x.
Proof.
  intros q dq Q0 Q1. apply (der_ext (fun t => plus (q t O) (scal 2 (q t 1%nat))) _ 0 (plus (dq O) (scal 2 (dq 1%nat)))).
  - intros t. reflexivity.
  - cbn. unfold plus, scal; cbn. unfold mult; cbn. ring.
  - apply @is_derive_plus; [apply Q1; lia|]. apply @is_derive_scal. apply Q1; lia.
Qed.
Lemma line_der k : is_derive (fun t : R => (fun (_ : nat) => t) k) 0 1. Proof. apply @is_derive_id. Qed.
Example C213_condensed_example : forall th X, let A := asm2 false [bonded true false] in
  la_set A = true /\ cells_ok A /\ takes A th (bonded true false) = true /\ condensed A (bonded true false) = true /\
  condenses (bonded true false) [0%nat] [1%nat] (homog_jac th (bonded true false) (elem_solution A X (bonded true false))) /\
  homog_res th (bonded true false) (elem_solution A X (bonded true false)) 1 = 0 /\
  homog_res th (bonded true false) (elem_solution A X (bonded true false)) 0 = 2 * X O.
Proof.
  intros th X A. split; [reflexivity|]. split; [split; [|easy]; intros e d [<-|[]]; cbn; intros [<-|[<-|[]]]; lia|]. split; [reflexivity|]. split; [reflexivity|].
  destruct (bonded_condenses true false th (elem_solution A X (bonded true false))) as (Co & _ & _ & Z). split; [exact Co|]. split; [apply Z; reflexivity|].
  cbv -[Rplus Rmult IZR Ropp Rinv Rdiv Rminus]. field.
Qed.
(** The hypotheses of the theorem are met, and the derivative is that of 3 t. *)
Example C215_example : exists g, lcalculate_output_derivative (asm2 false [bonded true false]) (fun _ => 0) (fun _ => 0) = Ok g /\
  sum 2 (fun i => g i * (if (i =? 0)%nat then 1 else 0)) = 3.
Proof.
  destruct (C215_derivative_partial (asm2 false [bonded true false]) (fun _ => 0) (fun _ => 0) (fun i => if (i =? 0)%nat then 1 else 0)
    (fun _ t _ => t) (fun _ _ => 1) eq_refl) as (g & E & _ & D).
  - split; [|easy]. intros e d [<-|[]]; cbn; intros [<-|[<-|[]]]; lia.
  - intros i r Hi Hr. discriminate.
  - intros e [<-|[]]. split; [reflexivity|]. split; [intros; apply @is_derive_id|]. split; [discriminate|]. split.
    + intros _. split; [discriminate|]. exists [0%nat], [1%nat]. destruct (bonded_condenses true false (fun _ => 0) (elem_solution (asm2 false [bonded true false]) (fun _ => 0) (bonded true false))) as (_ & Co & Vf & _).
      split; [exact Co|]. split; [exact Vf|]. intros k [<-|[]]. reflexivity.
    + intros p [<-|[]]. apply two_gradient.
  - exists g. split; auto. eapply der_unique; [exact D|].
    apply (der_ext (fun t => scal 3 t) _ 0 (scal 3 1)).
    + intros t. cbv -[Rplus Rmult IZR]. ring.
    + unfold scal; cbn. unfold mult; cbn. ring.
    + apply @is_derive_scal. apply @is_derive_id.
Qed.
(** The same output taken on the void: the gradient does not follow the void dofs. *)
Theorem C215_low_refuted : exists A th g, la_set A = true /\ cells_ok A /\
  (forall e p X, In e (cells A) -> In p (counted_pieces A th e) -> piece_gradient th (length (lc_dofs e)) p (elem_solution A X e)) /\
  (forall e X, In e (cells A) -> condenses e [0%nat] [1%nat] (transp (homog_jac th e (elem_solution A X e))) /\
     forall t, homog_res th e (elem_solution A (fun i => if (i =? 0)%nat then t else 0) e) 1 = 0) /\
  lcalculate_output_derivative A th (fun _ => 0) = Ok g /\
  sum (n (la_cons A)) (fun i => g i * (if (i =? 0)%nat then 1 else 0)) = 1 /\
  forall t, lcalculate_output A th (fun i => if (i =? 0)%nat then t else 0) = Ok (3 * t).
Proof.
  exists (asm2 true [bonded false true]), (fun _ => 0). eexists. split; [reflexivity|]. split; [split; [|easy]; intros e d [<-|[]]; cbn; intros [<-|[<-|[]]]; lia|].
  split; [intros e p X [<-|[]] [<-|[]]; apply two_gradient|]. split; [|split; [reflexivity|split]].
  - intros e X [<-|[]]. destruct (bonded_condenses false true (fun _ => 0) (elem_solution (asm2 true [bonded false true]) X (bonded false true))) as (_ & Co & _).
    split; [exact Co|]. intros t. apply bonded_condenses. reflexivity.
  - cbn [la_cons asm2 n free_sys sum]. rewrite !loutd_eq. cbn [cells asm2 la_ranks concat app]. unfold total. cbn [map lsum fold_right].
    unfold outd_vec, takes, shown. cbn [asm2 la_low la_ind negb orb andb lc_pos bonded]. cbv -[Rplus Rmult IZR]. ring.
  - intros t. unfold lcalculate_output, assert_. cbn [la_set asm2]. rewrite lout_eq. f_equal. cbn [cells asm2 la_ranks concat app]. unfold total. cbn [map lsum fold_right].
    unfold cell_output, takes, shown. cbn [asm2 la_low la_ind negb orb andb lc_pos bonded]. cbv -[Rplus Rmult IZR]. ring.
Qed.
(** With outputs on the void, elements that the indicator excludes are counted. *)
Theorem C215_hidden_refuted : exists A th X e, la_set A = true /\ la_ind A = true /\ cells A = [e] /\ (forall v, In v (lc_nodes e) -> v = 0) /\
  lcalculate_output A th X = Ok 4.
Proof.
  exists (asm true true false false [empty_cell 0]), (fun _ => 0), (fun _ => 1). eexists. split; [reflexivity|]. split; [reflexivity|]. split; [reflexivity|]. split.
  - intros v [<-|[]]. reflexivity.
  - unfold lcalculate_output, assert_. cbn [la_set asm]. rewrite lout_eq. f_equal. cbn [cells asm la_ranks concat app]. unfold total. cbn [map lsum fold_right].
    unfold cell_output, takes. cbn [asm la_low lc_pos empty_cell]. rewrite andb_false_r. cbv -[Rplus Rmult IZR]. ring.
Qed.
(** The derivative does not check for the level set. *)
Theorem C215_unset_refuted : exists A, la_set A = false /\ forall th X, lcalculate_output_derivative A th X = Fault NullDeref.
Proof. exists (mkLna (free_sys 1) [[solid]] false false false false (fun _ => false) false None false). split; reflexivity. Qed.

(** ** C216 direct sensitivity of the output *)
Theorem C216_sensitivity_partial : forall A th f (U : R -> vec) X dX loc, la_set A = true -> (la_topo A f = true -> la_vel A = true) ->
  unfactored A -> (dX = None -> loc = false) -> (la_override A = true -> dX = None) ->
  (forall d, U (th f) d = X d) -> (forall d, is_derive (fun t => U t d) (th f) (match dX with Some v => v d | None => 0 end)) ->
  (forall e, In e (cells A) -> share_derivative A th f e (gather (lc_dofs e) X)) ->
  (forall e, In e (cells A) -> excluded A f e = true -> dX = None -> share_sensitivity A th f e (gather (lc_dofs e) X) zero = 0) ->
  exists v, lcalculate_output_direct_sensitivity A th f X dX loc = Ok v /\ is_derive (fun t => cut_output A (at_ th f t) (U t)) (th f) v.
Proof.
  intros A th f U X dX loc L V Un Lc Ov U0 U1 D Ex. unfold lcalculate_output_direct_sensitivity, assert_. rewrite L.
  assert (Tv : la_topo A f && negb (la_vel A) = false) by (destruct (la_topo A f); auto; now rewrite V). rewrite Tv.
  exists (lover A (louts_cell A th f X dX) 0). split; [destruct dX; auto; now rewrite Lc|].
  rewrite louts_eq. unfold cut_output.
  apply (der_total _ (fun e t => cell_output A (at_ th f t) (gather (lc_dofs e) (U t)) e)). intros e He.
  assert (Es : elem_solution A X e = gather (lc_dofs e) X) by (unfold elem_solution; now rewrite (Un e He)). rewrite Es.
  pose (dq := match dX with Some d => gather (lc_dofs e) d | None => zero end).
  assert (De : is_derive (fun t => cell_output A (at_ th f t) (gather (lc_dofs e) (U t)) e) (th f) (share_sensitivity A th f e (gather (lc_dofs e) X) dq)).
  { apply (D e He (fun t => gather (lc_dofs e) (U t)) dq).
    - intros k _. unfold gather. apply U0.
    - intros k _. unfold gather. pose proof (U1 (dof (lc_dofs e) k)) as H. unfold dq. destruct dX; exact H. }
  eapply der_ext; [intros; reflexivity| |exact De]. unfold dq.
  destruct (excluded A f e) eqn:Xe; cbn [andb negb zif]; auto.
  destruct dX as [v|]; cbn [negb zif].
  - destruct (la_override A) eqn:O'; [discriminate (Ov eq_refl)|reflexivity].
  - symmetry. now apply Ex.
Qed.
Lemma growing_share th x : share_derivative (asm false false true false [growing [spring 2 false 0]]) th O (growing [spring 2 false 0]) x.
Proof.
  intros q dq Q0 Q1. unfold share_sensitivity, counted_pieces, cell_output. cbn [asm la_low]. unfold takes, shown. cbn [asm la_ind negb orb lc_pos growing andb app lc_hi].
  unfold total. cbn [map lsum fold_right pc_q pc_qs pc_qb spring la_topo asm].
  assert (D : is_derive (fun t => q t O) (th O) (dq O)) by (apply Q1; cbn; lia).
  apply (der_ext (fun t => plus (scal 2 (q t O)) (mult t (q t O))) _ (th O) (plus (scal 2 (dq O)) (plus (mult 1 (q (th O) O)) (mult (th O) (dq O))))).
  - intros t. unfold plus, scal, at_; cbn. unfold mult; cbn. ring.
  - rewrite Q0 by (cbn; lia). unfold plus, scal; cbn. unfold mult; cbn. ring.
  - apply @is_derive_plus; [apply @is_derive_scal; exact D|]. apply (is_derive_mult (fun t => t) (fun t => q t O)); auto; [apply @is_derive_id|]. intros; apply Rmult_comm.
Qed.
Example C216_example : let A := asm false false true false [growing [spring 2 false 0]] in
  exists v, lcalculate_output_direct_sensitivity A (fun _ => 5) O (fun _ => 3) (Some (fun _ => 2)) true = Ok v /\ v = 17.
Proof.
  cbv zeta. destruct (C216_sensitivity_partial (asm false false true false [growing [spring 2 false 0]]) (fun _ => 5) O (fun t _ => 3 + (t - 5) * 2) (fun _ => 3) (Some (fun _ => 2)) true) as (v & E & D).
  - reflexivity.
  - reflexivity.
  - intros e _. reflexivity.
  - discriminate.
  - discriminate.
  - intros d. ring.
  - intros d. apply (der_ext (fun t => plus (3 - 10) (scal t 2)) _ 5 (plus 0 (scal 1 2))).
    + intros t. unfold plus, scal; cbn. unfold mult; cbn. ring.
    + unfold plus, scal; cbn. unfold mult; cbn. ring.
    + apply @is_derive_plus; [apply @is_derive_const|]. apply @is_derive_scal_l. apply @is_derive_id.
  - intros e [<-|[]]. apply growing_share.
  - discriminate.
  - exists v. split; auto. unfold lcalculate_output_direct_sensitivity, assert_ in E. cbn [la_set la_topo la_vel asm negb andb] in E. injection E as <-.
    rewrite louts_eq. cbn [cells asm la_ranks concat app]. unfold total. cbn [map lsum fold_right].
    unfold share_sensitivity, counted_pieces, takes, shown. cbn [asm la_low la_ind negb orb lc_pos growing andb]. cbv -[Rplus Rmult IZR]. ring.
Qed.
(** Void dofs of condensed elements follow the material, their given sensitivity does not. *)
Theorem C216_factored_refuted : exists A th v, la_set A = true /\
  (forall e x, In e (cells A) -> condenses e [0%nat] [1%nat] (homog_jac th e x) /\
     forall t, homog_res th e (elem_solution A (fun i => if (i =? 0)%nat then t else 0) e) 1 = 0) /\
  (forall e p x dx, In e (cells A) -> In p (counted_pieces A th e) ->
     pc_qs p th O x dx = sum (length (lc_dofs e)) (fun k => pc_qx p th x k * dx k)) /\
  lcalculate_output_direct_sensitivity A th O (fun i => if (i =? 0)%nat then th O else 0) (Some (fun i => if (i =? 0)%nat then 1 else 0)) true = Ok v /\ v = 1 /\
  forall t, lcalculate_output A (at_ th O t) (fun i => if (i =? 0)%nat then t else 0) = Ok (3 * t).
Proof.
  exists (asm2 false [bonded true false]), (fun _ => 0). eexists. split; [reflexivity|]. split; [|split; [|split; [reflexivity|split]]].
  - intros e x [<-|[]]. split; [apply bonded_condenses|]. intros t. apply bonded_condenses. reflexivity.
  - intros e p x dx [<-|[]] [<-|[]]. cbn. ring.
  - rewrite louts_eq. cbn [cells asm2 la_ranks concat app]. unfold total. cbn [map lsum fold_right].
    unfold share_sensitivity, counted_pieces, takes, shown. cbn [asm2 la_low la_ind negb orb lc_pos bonded andb]. cbv -[Rplus Rmult IZR]. ring.
  - intros t. unfold lcalculate_output, assert_. cbn [la_set asm2]. rewrite lout_eq. f_equal. cbn [cells asm2 la_ranks concat app]. unfold total. cbn [map lsum fold_right].
    unfold cell_output, takes, shown. cbn [asm2 la_low la_ind negb orb andb lc_pos bonded]. cbv -[Rplus Rmult IZR]. ring.
Qed.
(** Localising an absent sensitivity follows a null pointer; missing level set or velocity are refused. *)
Theorem C216_null_refuted : forall A th f X, la_set A = true -> (la_topo A f = true -> la_vel A = true) ->
  lcalculate_output_direct_sensitivity A th f X None true = Fault NullDeref /\
  exists v, lcalculate_output_direct_sensitivity A th f X None false = Ok v.
Proof.
  intros A th f X L V. unfold lcalculate_output_direct_sensitivity, assert_. rewrite L.
  assert (Tv : la_topo A f && negb (la_vel A) = false) by (destruct (la_topo A f); auto; now rewrite V). rewrite Tv. split; [reflexivity|eauto].
Qed.
Theorem C216_refused : forall A th f X dX loc, la_set A = false \/ (la_topo A f = true /\ la_vel A = false) ->
  lcalculate_output_direct_sensitivity A th f X dX loc = Fault AssertFailed.
Proof.
  intros A th f X dX loc H. unfold lcalculate_output_direct_sensitivity, assert_. destruct (la_set A); auto. destruct H as [H|[T V]]; [discriminate|].
  now rewrite T, V.
Qed.

(** ** C217 attaching and detaching *)
(** the states that calls lead to *)
Definition idle (h : hold) : Prop := h_level h = None /\ h_int h = None /\ h_dofh h = None /\ h_void h = None /\ h_heap h = [].
Definition busy (h : hold) : Prop := h_level h <> None /\ h_system h = true /\ exists a, h_int h = Some a /\
  ((h_enable h = false /\ h_dofh h = None /\ h_void h = None /\ h_heap h = [a]) \/
   (h_enable h = true /\ h_dofh h = Some (S a) /\ h_void h = Some (S (S a)) /\ h_heap h = [a; S a; S (S a)])).
Lemma free_busy a : (a =? S a)%nat = false /\ (a =? S (S a))%nat = false /\ (S a =? S (S a))%nat = false.
Proof. repeat split; apply Nat.eqb_neq; lia. Qed.
Lemma hclear_ok h : idle h \/ busy h -> exists h', hstep h ClearLevel = Ok h' /\ idle h' /\ h_vel h' = h_vel h /\ h_indic h' = h_indic h /\ h_system h' = h_system h /\ h_enable h' = h_enable h.
Proof.
  intros I. destruct h as [en sy lv ve ic it dh vo hp nx]. destruct I as [(I1 & I2 & I3 & I4 & I5)|(I1 & I2 & a & I3 & I4)]; cbn in *; subst.
  - eexists. split; [reflexivity|]. easy.
  - destruct (free_busy a) as (N1 & N2 & N3). destruct I4 as [(-> & -> & -> & ->)|(-> & -> & -> & ->)]; cbn -[Nat.eqb]; repeat (rewrite ?Nat.eqb_refl, ?N1, ?N2, ?N3; cbn -[Nat.eqb]).
    + eexists. split; [reflexivity|]. easy.
    + eexists. split; [reflexivity|]. easy.
Qed.
Lemma hinv_step h o h' : idle h \/ busy h -> hstep h o = Ok h' -> idle h' \/ busy h'.
Proof.
  intros I E. destruct (hclear_ok h I) as (h1 & E1 & Id & _). destruct o; try (left; congruence). all: clear h1 E1 Id. all: destruct h as [en sy lv ve ic it dh vo hp nx]. all: cbn in E.
  - destruct I as [(I1 & I2 & I3 & I4 & I5)|(I1 & I2 & _)]; cbn in *; subst; cbn in E.
    + destruct sy; cbn in E; [|discriminate]. destruct en; injection E as <-; right; (split; [discriminate|split; [reflexivity|exists nx; cbn; auto 10]]).
    + destruct lv; [discriminate|congruence].
  - unfold assert_ in E. destruct (isNone ic); [|discriminate]. destruct sy; [|discriminate]. injection E as <-. destruct I as [I|I]; [left|right]; exact I.
  - unfold assert_ in E. destruct (negb (isNone lv)); [|discriminate]. destruct (negb (isNone it)); [|discriminate]. destruct sy; [|discriminate]. destruct (isNone ve); [|discriminate].
    injection E as <-. destruct I as [I|I]; [left|right]; exact I.
  - injection E as <-. destruct I as [I|I]; [left|right]; exact I.
Qed.
Lemma hinv_run l : forall h h', idle h \/ busy h -> hrun h l = Ok h' -> idle h' \/ busy h'.
Proof.
  induction l as [|o l IH]; intros h h' I E; cbn in E; [injection E as <-; auto|]. destruct (hstep h o) as [h1|] eqn:Q; cbn in E; [|discriminate].
  apply (IH h1); auto. eapply hinv_step; eauto.
Qed.
(** Whatever the calls, nothing is freed twice (a call either succeeds or fails an assertion), and destroying the object
    then frees everything it has allocated. *)
Theorem C217_memory : forall en sy l, 
  (exists h, hrun (hold_new en sy) l = Ok h /\ hdestroy h = Ok []) \/ hrun (hold_new en sy) l = Fault AssertFailed.
Proof.
  intros en sy l. assert (I : idle (hold_new en sy) \/ busy (hold_new en sy)) by (left; easy). revert I. generalize (hold_new en sy).
  induction l as [|o l IH]; intros h I; cbn [hrun].
  - left. exists h. split; auto. destruct h as [en' sy' lv ve ic it dh vo hp nx]. destruct I as [(I1 & I2 & I3 & I4 & I5)|(I1 & I2 & a & I3 & I4)]; cbn in *; subst; [reflexivity|].
    destruct (free_busy a) as (N1 & N2 & N3). destruct I4 as [(-> & -> & -> & ->)|(-> & -> & -> & ->)]; unfold hdestroy; cbn -[Nat.eqb]; repeat (rewrite ?Nat.eqb_refl, ?N1, ?N2, ?N3; cbn -[Nat.eqb]); reflexivity.
  - destruct (hstep h o) as [h1|ft] eqn:Q; cbn [bind].
    + apply IH. eapply hinv_step; eauto.
    + right. assert (ft = AssertFailed).
      { destruct o; try (destruct (hclear_ok h I) as (h' & E & _); congruence); cbn in Q; unfold assert_ in Q;
        repeat match type of Q with (if ?b then _ else _) = _ => destruct b end; congruence. }
      now subst.
Qed.
(** After clearing both the level set and its velocity another level set and velocity can be set. *)
Theorem C217_replace_partial : forall en l h v w, hrun (hold_new en true) l = Ok h ->
  exists h', hrun h [ClearLevel; ClearVelocity; SetLevel v; SetVelocity w] = Ok h' /\ h_level h' = Some v /\ h_vel h' = Some w /\ h_indic h' = h_indic h.
Proof.
  intros en l h v w E. assert (I : idle h \/ busy h) by (apply (hinv_run l (hold_new en true)); auto; left; easy).
  assert (Sy : h_system h = true).
  { clear I. revert E. assert (S0 : h_system (hold_new en true) = true) by reflexivity. revert S0. generalize (hold_new en true). induction l as [|o l IH]; intros g S0 E; cbn in E; [now injection E as <-|].
    destruct (hstep g o) as [g1|] eqn:Q; cbn in E; [|discriminate]. apply (IH g1); auto. destruct g as [en' sy' lv ve ic it dh vo hp nx]. cbn in S0. subst sy'.
    destruct o; cbn -[free] in Q; unfold assert_ in Q;
      repeat (match type of Q with (if ?b then _ else _) = _ => destruct b | (match it with None => _ | _ => _ end) = _ => destruct it | (_ <- ?m ;; _) = _ => destruct m; cbn [bind] in Q end);
      try discriminate; now injection Q as <-. }
  destruct (hclear_ok h I) as (h1 & E1 & (I1 & I2 & I3 & I4 & I5) & V1 & C1 & S1 & N1). cbn [hrun]. rewrite E1. cbn [bind].
  destruct h1 as [en' sy' lv ve ic it dh vo hp nx]. cbn in *. subst. rewrite Sy. cbn. destruct (h_enable h); cbn; eexists; (split; [reflexivity|]); auto.
Qed.
(** Clearing the level set keeps the velocity of the old one, so that the velocity of the new one is refused. *)
Theorem C217_velocity_refuted : forall en l h v w u, hrun (hold_new en true) l = Ok h -> h_vel h = Some u ->
  hrun h [ClearLevel; SetLevel v; SetVelocity w] = Fault AssertFailed /\ exists h', hrun h [ClearLevel; SetLevel v] = Ok h' /\ h_vel h' = Some u.
Proof.
  intros en l h v w u E V. destruct (C217_replace_partial en l h v w E) as (h2 & E2 & _).
  assert (I : idle h \/ busy h) by (apply (hinv_run l (hold_new en true)); auto; left; easy).
  destruct (hclear_ok h I) as (h1 & E1 & (I1 & I2 & I3 & I4 & I5) & V1 & C1 & S1 & N1). cbn [hrun] in *. rewrite E1 in *. cbn [bind] in *.
  destruct h1 as [en' sy' lv ve ic it dh vo hp nx]. cbn in *. subst. destruct (h_system h); cbn in *; [|discriminate].
  destruct (h_enable h); cbn in *; rewrite V; cbn; split; eauto.
Qed.
(** An indicator, once set, stays. *)
Theorem C217_indicator_refuted : forall l h i j, h_indic h = Some i -> 
  (forall h', hrun h l = Ok h' -> h_indic h' = Some i) /\ forall h', hrun h (l ++ [SetIndicator j]) <> Ok h'.
Proof.
  assert (K : forall l h i h', h_indic h = Some i -> hrun h l = Ok h' -> h_indic h' = Some i).
  { induction l as [|o l IH]; intros h i h' E H; cbn in H; [now injection H as <-|]. destruct (hstep h o) as [g|] eqn:Q; cbn in H; [|discriminate].
    apply (IH g i h'); auto. destruct h as [en' sy' lv ve ic it dh vo hp nx]. cbn in E. subst ic.
    destruct o; cbn -[free] in Q; unfold assert_ in Q;
      repeat (match type of Q with (if ?b then _ else _) = _ => destruct b | (match it with None => _ | _ => _ end) = _ => destruct it | (_ <- ?m ;; _) = _ => destruct m; cbn [bind] in Q end);
      try discriminate; now injection Q as <-. }
  intros l h i j E. split; [intros h'; now apply K|]. intros h' H.
  assert (R' : forall l h, hrun h (l ++ [SetIndicator j]) = (g <- hrun h l ;; hstep g (SetIndicator j))).
  { induction l0 as [|o l0 IH]; intros g; cbn; [destruct (assert_ _ _); reflexivity|]. destruct (hstep g o); cbn; auto. }
  rewrite R' in H. destruct (hrun h l) as [g|] eqn:Q; cbn in H; [|discriminate]. rewrite (K l h i g E Q) in H. discriminate.
Qed.
Example C217_example : exists h, hrun (hold_new true true) [SetIndicator 7; SetLevel 1; SetVelocity 2; ClearLevel; SetLevel 3] = Ok h /\
  h_vel h = Some 2%nat /\ h_level h = Some 3%nat /\ length (h_heap h) = 3%nat /\ h_indic h = Some 7%nat.
Proof. eexists. split; [reflexivity|]. easy. Qed.

Print Assumptions C215_output.
Print Assumptions C215_derivative_partial.
Print Assumptions C215_plain.
Print Assumptions C215_low_refuted.
Print Assumptions C215_hidden_refuted.
Print Assumptions C215_unset_refuted.
Print Assumptions C216_sensitivity_partial.
Print Assumptions C216_factored_refuted.
Print Assumptions C216_null_refuted.
Print Assumptions C216_refused.
Print Assumptions C217_memory.
Print Assumptions C217_replace_partial.
Print Assumptions C217_velocity_refuted.
Print Assumptions C217_indicator_refuted.
