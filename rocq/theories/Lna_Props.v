From Coq Require Import Reals.
From Coquelicot Require Import Coquelicot.
From Coq Require Import List Arith Bool Permutation Lia Lra.
From Verif Require Import Base BaseLemmas RBool Sens_Model Sens_Spec Sens_Proofs Sens_Proofs2 Lna_Model Lna_Spec Lna_Proofs Lna_Proofs2.
Import ListNotations.
Open Scope R_scope.

Lemma part_ext C ds v w i : (forall k, (k < length ds)%nat -> v k = w k) -> part C ds v i = part C ds w i.
Proof. intros H. unfold part. apply sum_ext. intros k Hk. now rewrite H. Qed.
Lemma der_line (X y : vec) ds k : is_derive (fun t => gather ds (fun d => X d + t * y d) k) 0 (gather ds y k).
Proof.
  unfold gather. apply (der_ext (fun t => plus (X (dof ds k)) (scal t (y (dof ds k)))) _ 0 (plus 0 (scal 1 (y (dof ds k))))); [reflexivity| |].
  - unfold plus, scal; cbn. unfold mult; cbn. ring.
  - apply @is_derive_plus; [apply @is_derive_const|]. apply @is_derive_scal_l. apply @is_derive_id.
Qed.
Lemma line_0 (X y : vec) ds k : gather ds (fun d => X d + 0 * y d) k = gather ds X k. Proof. unfold gather. ring. Qed.

(** ** C213 residual and Jacobian *)
(** The residual is the sum of the forces of the elements that have material that counts; a condensed element contributes
    its homogenised forces on its material dofs, provided its stored void solution is in equilibrium. *)
Theorem C213_residual_partial : forall A th X wj rows voids, la_set A = true ->
  (forall e, In e (cells A) -> takes A th e = true -> condensed A e = true ->
     condenses e (rows e) (voids e) (homog_jac th e (elem_solution A X e)) /\
     forall b, (b < length (voids e))%nat -> homog_res th e (elem_solution A X e) (nth b (voids e) O) = 0) ->
  exists r j, lresidual_and_jacobian A th true wj X = Ok (Some r, j) /\
    forall i, r i = if constrained (la_cons A) i then 0
      else total (fun e => part (la_cons A) (lc_dofs e) (elem_forces A th rows X e) i) (filter (takes A th) (cells A)).
Proof.
  intros A th X wj rows voids L H. unfold lresidual_and_jacobian, assert_. rewrite L. cbn [negb andb]. eexists _, _. split; [reflexivity|].
  intros i. rewrite lres_eq. destruct (constrained _ i); auto. apply total_ext. intros e He. apply filter_In in He. destruct He as [He Te].
  apply part_ext. intros k Hk. unfold elem_forces. destruct (condensed A e) eqn:U.
  - destruct (H e He Te U) as [Co Z]. now rewrite (cell_factored A th X e k (rows e) (voids e) U Co Z).
  - now apply cell_unfactored.
Qed.
(** Without condensed elements it is the residual of the material sub-elements. *)
Theorem C213_plain : forall A th X wj, la_set A = true -> unfactored A ->
  exists r j, lresidual_and_jacobian A th true wj X = Ok (Some r, j) /\
    forall i, r i = if constrained (la_cons A) i then 0 else cut_residual A th X i.
Proof.
  intros A th X wj L U. destruct (C213_residual_partial A th X wj (fun _ => []) (fun _ => []) L) as (r & j & E & H).
  - intros e He _ Q. rewrite (U e He) in Q. discriminate.
  - exists r, j. split; auto. intros i. rewrite H. destruct (constrained _ i); auto. apply total_ext. intros e He. apply filter_In in He.
    apply part_ext. intros k _. unfold elem_forces. now rewrite (U e (proj1 He)).
Qed.
Lemma der_material A th X y e : takes A th e = true ->
  (forall p, In p (lc_hi e th) -> piece_jacobian th (length (lc_dofs e)) p (gather (lc_dofs e) X)) ->
  forall k, (k < length (lc_dofs e))%nat ->
  is_derive (fun t => material th e (gather (lc_dofs e) (fun d => X d + t * y d)) k) 0
    (sum (length (lc_dofs e)) (fun l => total (fun p => pc_jac p th (gather (lc_dofs e) X) k l) (lc_hi e th) * gather (lc_dofs e) y l)).
Proof.
  intros _ J k Hk. unfold material.
  apply (der_ext (fun t => total (fun p => pc_res p th (gather (lc_dofs e) (fun d => X d + t * y d)) k) (lc_hi e th)) _ 0
     (total (fun p => sum (length (lc_dofs e)) (fun l => pc_jac p th (gather (lc_dofs e) X) k l * gather (lc_dofs e) y l)) (lc_hi e th))).
  - reflexivity.
  - rewrite total_sum. apply sum_ext. intros l _. rewrite Rmult_comm, <- total_scal. apply total_ext. intros; ring.
  - apply (der_total _ (fun p t => pc_res p th (gather (lc_dofs e) (fun d => X d + t * y d)) k)). intros p Hp.
    apply (J p Hp (fun t => gather (lc_dofs e) (fun d => X d + t * y d)) (gather (lc_dofs e) y)); auto.
    + intros; apply line_0.
    + intros; apply der_line.
Qed.
(** The Jacobian is the derivative of the residual plus a stiffness of 1e-14 on the dofs of void elements. *)
Theorem C213_jacobian_partial : forall A th X wr, la_set A = true -> unfactored A -> cells_ok A ->
  exists r j, lresidual_and_jacobian A th wr true X = Ok (r, Some j) /\
    forall y i, (i < n (la_cons A))%nat -> admissible (la_cons A) y -> row (la_cons A) i = None ->
      (forall e p, In e (cells A) -> takes A th e = true -> In p (lc_hi e th) -> piece_jacobian th (length (lc_dofs e)) p (gather (lc_dofs e) X)) ->
      is_derive (fun t => cut_residual A th (fun d => X d + t * y d) i) 0
        (sum (n (la_cons A)) (fun l => j i l * y l) - void_stiffness A th y i).
Proof.
  intros A th X wr L U K. unfold lresidual_and_jacobian, assert_. rewrite L. cbn [negb andb]. rewrite andb_false_r. cbn [andb].
  eexists _, _. split; [reflexivity|]. intros y i Hi Ad Ri J. rewrite ljac_adm by auto. unfold cut_residual.
  set (C := la_cons A).
  apply (der_ext (fun t => total (fun e => part C (lc_dofs e) (material th e (gather (lc_dofs e) (fun d => X d + t * y d))) i) (filter (takes A th) (cells A))) _ 0
    (total (fun e => part C (lc_dofs e) (fun k => sum (length (lc_dofs e)) (fun l => snd (cell_vec_mat A th X e) k l * gather (lc_dofs e) y l)) i)
    (filter (takes A th) (cells A)))); [reflexivity|unfold C; ring|].
  apply (der_total _ (fun e t => part C (lc_dofs e) (material th e (gather (lc_dofs e) (fun d => X d + t * y d))) i)).
  intros e He. apply filter_In in He. destruct He as [He Te]. apply der_part. intros k Hk.
  eapply der_ext; [intros; reflexivity| |apply (der_material A th X y e Te (fun p Hp => J e p He Te Hp) k Hk)].
  apply sum_ext. intros l _. rewrite cell_mat_unfactored by now apply U. reflexivity.
Qed.
Corollary C213_exact : forall A th X wr y i, la_set A = true -> unfactored A -> cells_ok A ->
  (i < n (la_cons A))%nat -> admissible (la_cons A) y -> row (la_cons A) i = None ->
  (forall e p, In e (cells A) -> takes A th e = true -> In p (lc_hi e th) -> piece_jacobian th (length (lc_dofs e)) p (gather (lc_dofs e) X)) ->
  (forall e d, In e (cells A) -> voided A th e = true -> In d (lc_dofs e) -> coef (la_cons A) d i = 0) ->
  exists r j, lresidual_and_jacobian A th wr true X = Ok (r, Some j) /\
    is_derive (fun t => cut_residual A th (fun d => X d + t * y d) i) 0 (sum (n (la_cons A)) (fun l => j i l * y l)).
Proof.
  intros A th X wr y i L U K Hi Ad Ri J V. destruct (C213_jacobian_partial A th X wr L U K) as (r & j & E & H). exists r, j. split; auto.
  eapply der_ext; [intros; reflexivity| |apply (H y i); auto]. unfold void_stiffness. rewrite total_0; [ring|].
  intros e He. apply filter_In in He. destruct He as [He Ve]. unfold part. apply sum_0. intros k Hk.
  rewrite (V e (dof (lc_dofs e) k)); auto; [ring|]. now apply nth_In.
Qed.
(** Condensed elements: the assembled matrix, applied to a direction that vanishes on their void dofs, acts as the
    homogenised Jacobian does on the direction completed in the void. *)
Lemma place_mat_out rows j k l : NoDup rows -> ~ In k rows -> place_mat rows j k l = ident (/ 10 ^ 6) k l.
Proof.
  intros N Hk. unfold place_mat.
  assert (G : forall c m, (c <= length rows)%nat ->
    fold_left (fun m a => fold_left (fun m b => upd m (nth a rows O) (upd (m (nth a rows O)) (nth b rows O) (j a b)))
                          (seq 0 (length rows)) m) (seq 0 c) m k l = m k l).
  { induction c as [|c IH]; intros m Hc; [reflexivity|]. rewrite seq_S, fold_left_app. cbn [fold_left Nat.add].
    rewrite place_row; auto. destruct (Nat.eqb_spec k (nth c rows O)) as [E|E].
    - exfalso. apply Hk. subst k. apply nth_In. lia.
    - apply IH. lia. }
  apply G. lia.
Qed.
Lemma in_existsb k rows : existsb (Nat.eqb k) rows = true <-> In k rows.
Proof.
  split; intros H.
  - apply existsb_exists in H. destruct H as (x & I & E). apply Nat.eqb_eq in E. now subst.
  - apply existsb_exists. exists k. split; auto. apply Nat.eqb_refl.
Qed.
Theorem C213_condensed_partial : forall A th X wr rows voids y dx i, la_set A = true -> cells_ok A ->
  (i < n (la_cons A))%nat -> admissible (la_cons A) y -> row (la_cons A) i = None ->
  (forall e, In e (cells A) -> takes A th e = true -> condensed A e = true ->
     condenses e (rows e) (voids e) (homog_jac th e (elem_solution A X e)) /\
     void_follows th e (voids e) (elem_solution A X e) (dx e) /\
     (forall k, In k (rows e) -> dx e k = gather (lc_dofs e) y k) /\
     (forall k, In k (voids e) -> gather (lc_dofs e) y k = 0)) ->
  exists r j, lresidual_and_jacobian A th wr true X = Ok (r, Some j) /\
    sum (n (la_cons A)) (fun l => j i l * y l) = void_stiffness A th y i +
      total (fun e => part (la_cons A) (lc_dofs e) (fun k =>
          if condensed A e
          then (if existsb (Nat.eqb k) (rows e) then sum (length (lc_dofs e)) (fun l => homog_jac th e (elem_solution A X e) k l * dx e l) else 0)
          else sum (length (lc_dofs e)) (fun l => total (fun p => pc_jac p th (gather (lc_dofs e) X) k l) (lc_hi e th) * gather (lc_dofs e) y l)) i)
        (filter (takes A th) (cells A)).
Proof.
  intros A th X wr rows voids y dx i L K Hi Ad Ri H. unfold lresidual_and_jacobian, assert_. rewrite L. cbn [negb andb]. rewrite andb_false_r. cbn [andb].
  eexists _, _. split; [reflexivity|]. rewrite ljac_adm by auto. f_equal. apply total_ext. intros e He. apply filter_In in He. destruct He as [He Te].
  apply part_ext. intros k Hk. destruct (condensed A e) eqn:U.
  - destruct (H e He Te U) as (Co & Vf & Er & Ev). pose proof (proj1 Co) as P. pose proof (nodup_l _ _ (perm_nodup _ _ _ P)) as N.
    destruct (existsb (Nat.eqb k) (rows e)) eqn:Q.
    + apply in_existsb in Q. rewrite <- (cell_mat_factored A th X e (dx e) (rows e) (voids e) U Co Vf k Q). apply sum_ext. intros l Hl.
      f_equal. unfold restrict. destruct (existsb (Nat.eqb l) (rows e)) eqn:Ql.
      * apply in_existsb in Ql. symmetry. now apply Er.
      * apply Ev. assert (I : In l (rows e ++ voids e)) by (apply (Permutation_in _ (Permutation_sym P)), in_seq; lia).
        apply in_app_or in I. destruct I as [I|I]; auto. apply in_existsb in I. congruence.
    + assert (Nk : ~ In k (rows e)) by (intros I; apply in_existsb in I; congruence).
      assert (Yk : gather (lc_dofs e) y k = 0).
      { apply Ev. assert (I : In k (rows e ++ voids e)) by (apply (Permutation_in _ (Permutation_sym P)), in_seq; lia).
        apply in_app_or in I. destruct I; [contradiction|auto]. }
      unfold cell_vec_mat. change (factored A e) with (condensed A e). rewrite U, lsol_eq, mscale_homog, vscale_homog.
      destruct Co as (_ & W & _ & Hc). destruct (Hc (homog_res th e (elem_solution A X e))) as (juu & ru & E & _). rewrite E. cbn [snd].
      rewrite (sum_ext _ _ (fun l => ident (/ 10 ^ 6) k l * gather (lc_dofs e) y l)) by (intros; now rewrite place_mat_out).
      rewrite sum_diag, Yk by auto. ring.
  - apply sum_ext. intros l _. now rewrite cell_mat_unfactored.
Qed.
(** It does not depend on how the elements are distributed. *)
Theorem C213_distribution : forall A A' th X r j r' j', la_cons A' = la_cons A -> la_ind A' = la_ind A -> la_handler A' = la_handler A ->
  Permutation (cells A) (cells A') ->
  lresidual_and_jacobian A th true true X = Ok (Some r, Some j) -> lresidual_and_jacobian A' th true true X = Ok (Some r', Some j') ->
  (forall i, r i = r' i) /\ (forall a b, j a b = j' a b).
Proof.
  intros A A' th X r j r' j' C I Hd P E E'. unfold lresidual_and_jacobian, assert_ in E, E'. destruct (la_set A), (la_set A'); try discriminate.
  cbn [negb andb] in E, E'. injection E as <- <-. injection E' as <- <-.
  assert (T : forall e, takes A' th e = takes A th e) by (intros; unfold takes, shown; now rewrite I).
  assert (V : forall e, voided A' th e = voided A th e) by (intros; unfold voided; now rewrite I).
  assert (M : forall e, cell_vec_mat A' th X e = cell_vec_mat A th X e) by (intros; unfold cell_vec_mat, lsol, factored; now rewrite Hd).
  split.
  - intros i. rewrite !lres_eq, C. destruct (constrained _ i); auto. rewrite !total_filter. rewrite (total_perm _ _ _ P).
    apply total_ext. intros e _. rewrite T. destruct (takes A th e); auto. now rewrite M.
  - intros a b. rewrite !ljac_eq, C. rewrite (total_perm _ _ _ P). apply total_ext. intros e _. now rewrite T, V, M.
Qed.
(** Stops without a level set, and, asked for neither, at the first element with material that counts. *)
Theorem C213_refused : forall A th X, (forall wr wj, la_set A = false -> lresidual_and_jacobian A th wr wj X = Fault AssertFailed) /\
  ((exists r, lresidual_and_jacobian A th false false X = Ok r) <->
   la_set A = true /\ forall e, In e (cells A) -> takes A th e = true -> lc_dofs e = []).
Proof.
  intros A th X. split; [intros wr wj L; unfold lresidual_and_jacobian, assert_; now rewrite L|].
  unfold lresidual_and_jacobian, assert_. destruct (la_set A); [|split; [intros [r H]; discriminate|intros [H _]; discriminate]].
  cbn [negb andb]. fold (cells A). destruct (existsb _ _) eqn:E.
  - split; [intros [r H]; discriminate|]. intros [_ H]. apply existsb_exists in E. destruct E as (e & He & Q).
    apply andb_true_iff in Q. destruct Q as [Q1 Q2]. rewrite counts_eq in Q1. rewrite (H e He Q1) in Q2. discriminate.
  - split; [|eauto]. intros _. split; auto. intros e He Te. destruct (lc_dofs e) eqn:Q; auto. exfalso. rewrite <- not_true_iff_false in E. apply E.
    apply existsb_exists. exists e. split; auto. now rewrite counts_eq, Te, Q.
Qed.

(** A spring of stiffness 4 on one dof, in a fully solid element (0) and in one of which three quarters are solid (1),
    which has two sub-elements. *)
Definition free_sys (m : nat) : sys := mkSys m 0 [] [] (fun _ => false) (fun _ => None) (fun _ => false) None.
Definition spring (c : R) (s : bool) (b : R) : piece := mkPiece (fun _ x k => c * x k) (fun _ _ k l => if (k =? l)%nat then c else 0)
  (fun _ _ _ _ => 0) s (fun _ _ x k => b * x k) (fun _ x => c * x O) (fun _ _ k => if (k =? 0)%nat then c else 0)
  (fun _ _ _ dx => c * dx O) (fun _ _ x => b * x O).
Definition no_cond : matrix -> vec -> list nat * matrix * vec := fun _ _ => ([], mzero, zero).
Definition solid : lcell := mkLcell [0%nat] [1] (fun _ => false) (fun _ => true) (fun _ => [spring 4 false 0]) (fun _ => []) (fun _ => 1)
  (spring 4 false 0) false (fun x => x) no_cond.
Definition quarter : lcell := mkLcell [0%nat] [1] (fun _ => false) (fun _ => true) (fun _ => [spring 2 false 0; spring 1 true 5])
  (fun _ => [spring 1 true (-5)]) (fun _ => 3 / 4) (spring 4 false 0) false (fun x => x) no_cond.
Definition empty_cell (ind : R) : lcell := mkLcell [0%nat] [ind] (fun _ => true) (fun _ => false) (fun _ => []) (fun _ => [spring 4 false 0]) (fun _ => 0)
  (spring 4 false 0) false (fun x => x) no_cond.
Definition asm (ind low topo handler : bool) (l : list lcell) : lna := mkLna (free_sys 1) [l] true ind low handler (fun _ => topo) true None false.
Lemma spring_jacobian c s b th x : piece_jacobian th 1 (spring c s b) x.
Proof.
  intros q dq Q0 Q1 k Hk. assert (k = O) by lia. subst k. cbn.
  apply (der_ext (fun t => c * q t O) _ 0 (c * dq O)); [reflexivity|ring|]. apply der_scal. apply Q1. lia.
Qed.
Example C213_example : unfactored (asm true false false false [solid; quarter]) /\ cells_ok (asm true false false false [solid; quarter]) /\
  (forall th, takes (asm true false false false [solid; quarter]) th quarter = true) /\
  (forall th X, cut_residual (asm true false false false [solid; quarter]) th X O = 7 * X O) /\
  (forall th X e p, In e [solid; quarter] -> In p (lc_hi e th) -> piece_jacobian th (length (lc_dofs e)) p (gather (lc_dofs e) X)).
Proof.
  assert (T : forall th e, In e [solid; quarter] -> takes (asm true false false false [solid; quarter]) th e = true).
  { intros th e [<-|[<-|[]]]; unfold takes, shown; cbn; unfold rltb; destruct (Rlt_dec _ 1); auto; exfalso; apply n; pose proof tol_pos; lra. }
  split; [|split; [|split; [|split]]].
  - intros e He. unfold condensed. reflexivity.
  - split; [|easy]. intros e d [<-|[<-|[]]]; cbn; intros [<-|[]]; lia.
  - intros th. apply T. cbn. auto.
  - intros th X. unfold cut_residual. cbn [cells asm la_ranks concat app filter]. rewrite !T by (cbn; auto).
    cbv -[Rplus Rmult IZR]. ring.
  - intros th X e p [<-|[<-|[]]]; cbn; [intros [<-|[]]|intros [<-|[<-|[]]]]; apply spring_jacobian.
Qed.
(** A void element of one dof: its residual vanishes, its matrix entry does not. *)
Theorem C213_void_refuted : exists A th X j, la_set A = true /\ unfactored A /\ cells_ok A /\
  (forall x, cut_residual A th x O = 0) /\ lresidual_and_jacobian A th false true X = Ok (None, Some j) /\ j O O <> 0.
Proof.
  exists (asm false false false false [empty_cell 1]), (fun _ => 0), (fun _ => 0). eexists. split; [reflexivity|]. split; [intros e _; reflexivity|].
  split; [split; [|easy]; intros e d [<-|[]]; cbn; intros [<-|[]]; lia|]. split; [intros x; reflexivity|]. split; [reflexivity|].
  rewrite ljac_eq. cbn [cells asm la_ranks concat app]. unfold total. cbn [map lsum fold_right]. unfold takes, voided. cbn [lc_neg lc_pos empty_cell orb]. rewrite andb_false_r. cbn [zif].
  assert (E : mctr (free_sys 1) [0%nat] (ident (/ 10 ^ 14)) 0 0 = / 10 ^ 14) by (unfold mctr, constrained, coef, ident; cbn [row free_sys length sum dof nth Nat.eqb]; ring).
  cbn [la_cons asm lc_dofs empty_cell]. rewrite E. intros Q. assert (0 < / 10 ^ 14) by (apply Rinv_0_lt_compat; lra). lra.
Qed.
(** An element at the threshold of the indicator gets no matrix entry at all. *)
Theorem C213_threshold_refuted : exists A th X j e, In e (cells A) /\ In O (lc_dofs e) /\
  lresidual_and_jacobian A th false true X = Ok (None, Some j) /\ (forall l, j O l = 0) /\ forall v, In v (lc_nodes e) -> 0 < v.
Proof.
  set (e := mkLcell [0%nat] [/ 10 ^ 10] (fun _ => false) (fun _ => true) (fun _ => [spring 4 false 0]) (fun _ => []) (fun _ => 1)
  (spring 4 false 0) false (fun x => x) no_cond).
  exists (asm true false false false [e]), (fun _ => 0), (fun _ => 0). eexists. exists e. split; [now left|]. split; [now left|]. split; [|split].
  - unfold lresidual_and_jacobian, assert_. cbn [la_set asm negb andb]. reflexivity.
  - intros l. rewrite ljac_eq. cbn [cells asm la_ranks concat app]. unfold total. cbn [map lsum fold_right].
    assert (Tf : takes (asm true false false false [e]) (fun _ => 0) e = false).
    { unfold takes, shown. cbn [asm la_ind negb orb e lc_nodes existsb lc_pos]. rewrite orb_false_r, andb_true_r. unfold rltb. destruct (Rlt_dec _ _); auto. lra. }
    assert (Vf : voided (asm true false false false [e]) (fun _ => 0) e = false).
    { unfold voided. cbn [asm la_ind e lc_nodes forallb lc_neg orb andb]. rewrite andb_true_r. unfold rltb. destruct (Rlt_dec _ _); auto. lra. }
    rewrite Tf, Vf. cbn [zif]. ring.
  - intros v [<-|[]]. apply tol_pos.
Qed.

(** ** C214 sensitivity of the residual *)
Lemma hi_shown A th X i : pos_consistent A -> cut_residual A th X i =
  total (fun e => part (la_cons A) (lc_dofs e) (material th e (gather (lc_dofs e) X)) i) (filter (shown A) (cells A)).
Proof.
  intros Pc. unfold cut_residual. rewrite !total_filter. apply total_ext. intros e He. unfold takes. destruct (shown A e); cbn [andb]; auto.
  destruct (lc_pos e th) eqn:Q; auto. unfold part. symmetry. apply sum_0. intros k _. unfold material. rewrite (Pc e th He Q). unfold total; cbn. ring.
Qed.
Theorem C214_sensitivity_partial : forall A th f X, la_set A = true -> (la_topo A f = true -> la_vel A = true) -> unfactored A -> pos_consistent A ->
  (forall e, In e (cells A) -> la_topo A f = true -> sides_last (lc_hi e th)) ->
  (forall e, In e (cells A) -> shown A e = true -> material_derivative A th f e (gather (lc_dofs e) X)) ->
  (forall e k, In e (cells A) -> excluded A f e = true -> (k < length (lc_dofs e))%nat -> material_sensitivity A th f e (gather (lc_dofs e) X) k = 0) ->
  exists g, lsensitivity_assemble A th f X = Ok g /\ forall i,
    (row (la_cons A) i = None -> is_derive (fun t => cut_residual A (at_ th f t) X i) (th f) (g i)) /\
    (row (la_cons A) i <> None -> g i = 0).
Proof.
  intros A th f X L V U Pc Sl D Ex. unfold lsensitivity_assemble. rewrite L.
  assert (Tv : la_topo A f && negb (la_vel A) = false) by (destruct (la_topo A f); auto; now rewrite V). rewrite Tv. cbn [negb andb].
  eexists. split; [reflexivity|]. intros i. rewrite lsens_eq. unfold constrained. destruct (row (la_cons A) i) eqn:Ri; (split; [|]); try congruence; try easy.
  intros _. set (C := la_cons A) in *.
  apply (der_ext (fun t => total (fun e => part C (lc_dofs e) (material (at_ th f t) e (gather (lc_dofs e) X)) i) (filter (shown A) (cells A))) _ (th f)
    (total (fun e => part C (lc_dofs e) (material_sensitivity A th f e (gather (lc_dofs e) X)) i) (filter (shown A) (cells A)))).
  - intros t. now apply hi_shown.
  - rewrite total_filter. apply total_ext. intros e He. unfold takes.
    destruct (shown A e) eqn:Se; [|rewrite andb_false_l, andb_false_r; reflexivity]. cbn [andb].
    assert (Es : elem_solution A X e = gather (lc_dofs e) X) by (unfold elem_solution; now rewrite (U e He)). rewrite Es.
    destruct (excluded A f e) eqn:Xe; cbn [negb andb zif].
    + unfold part. symmetry. apply sum_0. intros k Hk. rewrite (Ex e k He Xe Hk). ring.
    + destruct (lc_pos e th) eqn:Pe; cbn [zif].
      * apply part_ext. intros k _. apply sens_pieces; auto.
      * unfold part. symmetry. apply sum_0. intros k _. unfold material_sensitivity. rewrite (Pc e th He Pe). unfold total; cbn. ring.
  - apply (der_total _ (fun e t => part C (lc_dofs e) (material (at_ th f t) e (gather (lc_dofs e) X)) i)). intros e He. apply filter_In in He.
    apply der_part. intros k Hk. apply (D e); tauto.
Qed.
(** A bar whose length is the parameter: force = parameter * 3 * x, from one sub-element with a moving side. *)
Definition growing (l1 : list piece) : lcell := mkLcell [0%nat] [1] (fun _ => false) (fun _ => true)
  (fun th => l1 ++ [mkPiece (fun th x k => 3 * th O * x k) (fun th _ k l => if (k =? l)%nat then 3 * th O else 0) (fun _ _ _ _ => 0) true (fun _ _ x k => 3 * x k)
              (fun th x => th O * x O) (fun th _ k => if (k =? 0)%nat then th O else 0) (fun th _ _ dx => th O * dx O) (fun _ _ x => x O)])
  (fun _ => []) (fun _ => 1) (spring 4 false 0) false (fun x => x) no_cond.
Lemma growing_derivative th X : material_derivative (asm false false true false [growing [spring 2 false 0]]) th O (growing [spring 2 false 0]) X.
Proof.
  intros k Hk. cbn in Hk. assert (k = O) by lia. subst k. unfold material, material_sensitivity, total. cbn [lc_hi growing app map lsum fold_right pc_res spring pc_dres pc_side pc_bnd la_topo asm andb].
  apply (der_ext (fun t => plus (2 * X O) (scal t (3 * X O))) _ (th O) (plus 0 (scal 1 (3 * X O)))).
  - intros t. unfold plus, scal, at_; cbn. unfold mult; cbn. ring.
  - unfold plus, scal; cbn. unfold mult; cbn. ring.
  - apply @is_derive_plus; [apply @is_derive_const|]. apply @is_derive_scal_l. apply @is_derive_id.
Qed.
Example C214_example : let A := asm false false true false [growing [spring 2 false 0]] in
  unfactored A /\ pos_consistent A /\ (forall e th, In e (cells A) -> sides_last (lc_hi e th)) /\
  (forall e th X, In e (cells A) -> material_derivative A th O e (gather (lc_dofs e) X)) /\
  (forall X i, is_derive (fun t => cut_residual A (at_ (fun _ => 0) O t) X O) 0 (3 * X O) /\ excluded A O i = false).
Proof.
  cbv zeta. split; [intros e _; reflexivity|]. split; [intros e t [<-|[]]; cbn; discriminate|]. split.
  { intros e th [<-|[]]. exists [spring 2 false 0]. eexists. split; [reflexivity|]. split; intros p [<-|[]]; reflexivity. }
  split; [intros e th X [<-|[]]; apply growing_derivative|]. intros X i. split; [|reflexivity].
  apply (der_ext (fun t => plus (2 * X O) (scal t (3 * X O))) _ 0 (plus 0 (scal 1 (3 * X O)))).
  - intros t. cbv -[Rplus Rmult IZR]. ring.
  - unfold plus, scal; cbn. unfold mult; cbn. ring.
  - apply @is_derive_plus; [apply @is_derive_const|]. apply @is_derive_scal_l. apply @is_derive_id.
Qed.
(** Boundary terms are added once more for every later sub-element without a side on the boundary. *)
Definition reversed : lcell := mkLcell [0%nat] [1] (fun _ => false) (fun _ => true)
  (fun th => [mkPiece (fun th x k => 3 * th O * x k) (fun th _ k l => if (k =? l)%nat then 3 * th O else 0) (fun _ _ _ _ => 0) true (fun _ _ x k => 3 * x k)
              (fun th x => th O * x O) (fun th _ k => if (k =? 0)%nat then th O else 0) (fun th _ _ dx => th O * dx O) (fun _ _ x => x O); spring 2 false 0])
  (fun _ => []) (fun _ => 1) (spring 4 false 0) false (fun x => x) no_cond.
Theorem C214_stale_refuted : exists A th X g, la_set A = true /\ la_vel A = true /\ unfactored A /\ pos_consistent A /\
  (forall e, In e (cells A) -> material_derivative A th O e (gather (lc_dofs e) X)) /\
  lsensitivity_assemble A th O X = Ok g /\ row (la_cons A) O = None /\
  is_derive (fun t => cut_residual A (at_ th O t) X O) (th O) 3 /\ g O = 6.
Proof.
  exists (asm false false true false [reversed]), (fun _ => 0), (fun _ => 1). eexists.
  split; [reflexivity|]. split; [reflexivity|]. split; [intros e _; reflexivity|]. split; [intros e t [<-|[]]; cbn; discriminate|]. split; [|split; [reflexivity|split; [reflexivity|split]]].
  - intros e [<-|[]] k Hk. cbn in Hk. assert (k = O) by lia. subst k. unfold material, material_sensitivity, total.
    cbn [lc_hi reversed map lsum fold_right pc_res spring pc_dres pc_side pc_bnd la_topo asm andb].
    apply (der_ext (fun t => plus 2 (scal t 3)) _ 0 (plus 0 (scal 1 3))).
    + intros t. unfold plus, scal, at_, gather; cbn. unfold mult; cbn. ring.
    + unfold plus, scal, gather; cbn. unfold mult; cbn. ring.
    + apply @is_derive_plus; [apply @is_derive_const|]. apply @is_derive_scal_l. apply @is_derive_id.
  - apply (der_ext (fun t => plus 2 (scal t 3)) _ 0 (plus 0 (scal 1 3))).
    + intros t. cbv -[Rplus Rmult IZR]. ring.
    + unfold plus, scal; cbn. unfold mult; cbn. ring.
    + apply @is_derive_plus; [apply @is_derive_const|]. apply @is_derive_scal_l. apply @is_derive_id.
  - rewrite lsens_eq. cbn [la_cons asm free_sys constrained row]. unfold constrained. cbn [row free_sys]. unfold total. cbn [cells asm la_ranks concat app map lsum fold_right].
    assert (T : takes (asm false false true false [reversed]) (fun _ => 0) reversed = true) by reflexivity. rewrite T.
    cbv -[Rplus Rmult IZR]. ring.
Qed.
(** A condensed element whose forces are those of its homogenised form: the sensitivity is that of its sub-elements. *)
Definition id_cond : matrix -> vec -> list nat * matrix * vec := fun m v => ([0%nat], m, v).
Definition graded : lcell := mkLcell [0%nat] [1] (fun _ => false) (fun _ => true)
  (fun th => [mkPiece (fun _ x k => 5 * x k) (fun _ _ k l => if (k =? l)%nat then 5 else 0) (fun _ _ _ _ => 0) true (fun _ _ x k => 0)
              (fun _ _ => 0) (fun _ _ _ => 0) (fun _ _ _ _ => 0) (fun _ _ _ => 0)])
  (fun _ => []) (fun th => th O) (spring 4 false 0) true (fun x => x) id_cond.
Theorem C214_factored_refuted : exists A th X g, la_set A = true /\ la_vel A = true /\ pos_consistent A /\
  (forall e, In e (cells A) -> sides_last (lc_hi e th) /\ material_derivative A th O e (gather (lc_dofs e) X) /\
     forall t, condenses e [0%nat] [] (homog_jac t e (elem_solution A X e))) /\
  lsensitivity_assemble A th O X = Ok g /\ g O = 0 /\
  forall t, exists r j, lresidual_and_jacobian A (at_ th O t) true false X = Ok (Some r, j) /\ r O = 4 * t.
Proof.
  exists (asm false false true true [graded]), (fun _ => 1), (fun _ => 1). eexists.
  split; [reflexivity|]. split; [reflexivity|]. split; [intros e t [<-|[]]; cbn; discriminate|]. split; [|split; [reflexivity|split]].
  - intros e [<-|[]]. split; [|split].
    + exists [], (lc_hi graded (fun _ => 1)). split; [reflexivity|]. split; [easy|]. intros p [<-|[]]; reflexivity.
    + intros k Hk. unfold material, material_sensitivity, total. cbn [lc_hi graded map lsum fold_right pc_res pc_dres pc_side pc_bnd la_topo asm andb].
      apply (der_ext (fun t => 5 * gather (lc_dofs graded) (fun _ => 1) k) _ 1 0); [intros; ring|ring|apply @is_derive_const].
    + intros t. split; [reflexivity|]. exists mzero. split; [intros a b Ha; cbn in Ha; lia|]. intros v. exists (homog_jac t graded (elem_solution (asm false false true true [graded]) (fun _ => 1) graded)), v.
      split; [reflexivity|]. split; [intros i Hi|intros i j Hi Hj]; cbn in *; assert (i = O) by lia; try (assert (j = O) by lia); subst; cbn; ring.
  - rewrite lsens_eq. cbn [la_cons asm]. unfold constrained. cbn [row free_sys]. unfold total. cbn [cells asm la_ranks concat app map lsum fold_right].
    assert (T : takes (asm false false true true [graded]) (fun _ => 1) graded = true) by reflexivity. rewrite T.
    cbv -[Rplus Rmult IZR]. ring.
  - intros t. eexists _, _. split; [reflexivity|]. rewrite lres_eq. cbn [la_cons asm]. unfold constrained. cbn [row free_sys cells asm la_ranks concat app filter].
    assert (T : takes (asm false false true true [graded]) (at_ (fun _ => 1) 0 t) graded = true) by reflexivity. rewrite T.
    cbv -[Rplus Rmult IZR]. ring.
Qed.
(** Without a level set it follows a null pointer; a topology parameter without velocity is refused. *)
Theorem C214_unset_refuted : exists A, la_set A = false /\ forall th X, lsensitivity_assemble A th O X = Fault NullDeref.
Proof. exists (mkLna (free_sys 1) [[solid]] false false false false (fun _ => false) false None false). split; reflexivity. Qed.
Theorem C214_velocity : forall A th f X, la_topo A f = true -> la_vel A = false -> lsensitivity_assemble A th f X = Fault AssertFailed.
Proof. intros A th f X T V. unfold lsensitivity_assemble. now rewrite T, V. Qed.

Print Assumptions C213_residual_partial.
Print Assumptions C213_plain.
Print Assumptions C213_jacobian_partial.
Print Assumptions C213_exact.
Print Assumptions C213_condensed_partial.
Print Assumptions C213_distribution.
Print Assumptions C213_refused.
Print Assumptions C213_void_refuted.
Print Assumptions C213_threshold_refuted.
Print Assumptions C214_sensitivity_partial.
Print Assumptions C214_stale_refuted.
Print Assumptions C214_factored_refuted.
Print Assumptions C214_unset_refuted.
Print Assumptions C214_velocity.
