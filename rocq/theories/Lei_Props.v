(** C218-C219: eigenproblem of a structure cut by a level set. *)
From Coq Require Import Reals.
From Coquelicot Require Import Coquelicot.
From Coq Require Import List Arith Bool Lra Lia Permutation.
From Verif Require Import Base BaseLemmas Sens_Model Sens_Spec Sens_Proofs Sens_Proofs2 Rom_Model Rom_Proofs Lei_Model Lei_Spec Lei_Proofs.
Import ListNotations.
Open Scope R_scope.

(** ** C218 *)
(** elements with material are taken whole *)
Theorem C218_whole : forall A th, mesh_ok A -> le_set A = true -> exists MA MB, cut_assemble A th = Ok (MA, MB) /\
  forall x y, admissible (le_cons A) x -> admissible (le_cons A) y ->
    bilinear (n (le_cons A)) MA x y = whole_form pt_A A th (le_base A) x y /\
    bilinear (n (le_cons A)) MB x y = whole_form pt_B A th (le_base A) x y.
Proof.
  intros A th K L. unfold cut_assemble, assert_. rewrite L. pose proof (none_grows A th K) as G. unfold all_cells in G. rewrite G.
  eexists _, _. split; [reflexivity|]. intros x y Ax Ay. split; apply eassemble_form; auto.
Qed.
(** so the forms are those of the cut structure if no element is cut *)
Theorem C218_matrices_partial : forall A th, mesh_ok A -> le_set A = true -> uncut A th (le_base A) ->
  exists MA MB, cut_assemble A th = Ok (MA, MB) /\
  forall x y, admissible (le_cons A) x -> admissible (le_cons A) y ->
    bilinear (n (le_cons A)) MA x y = cut_form pt_A A th (le_base A) x y /\
    bilinear (n (le_cons A)) MB x y = cut_form pt_B A th (le_base A) x y.
Proof.
  intros A th K L U. destruct (C218_whole A th K L) as (MA & MB & E & H). exists MA, MB. split; auto. intros x y Ax Ay.
  destruct (H x y Ax Ay) as (-> & ->). unfold whole_form, cut_form. rewrite !total_filter.
  split; apply total_ext; intros e He; destruct (ec_pos e th) eqn:P;
    try (unfold local_form; apply sum_ext; intros k _; apply sum_ext; intros l _; now rewrite (proj1 (U e He P k l)) || now rewrite (proj2 (U e He P k l)));
    unfold local_form; symmetry; apply sum_0; intros k _; apply sum_0; intros l _; unfold material_matrix; rewrite P; ring.
Qed.
Theorem C218_distribution : forall A A' th MA MB MA' MB', redistributed A A' ->
  cut_assemble A th = Ok (MA, MB) -> cut_assemble A' th = Ok (MA', MB') -> forall i j, MA' i j = MA i j /\ MB' i j = MB i j.
Proof.
  intros A A' th MA MB MA' MB' (Ec & Es & Eb & _ & _ & _ & P) E E'. unfold cut_assemble, assert_ in *.
  destruct (le_set A); [|discriminate]. rewrite Es in E'. destruct (existsb _ (concat (le_ranks A))); [discriminate|].
  destruct (existsb _ (concat (le_ranks A'))); [discriminate|]. inversion E; inversion E'; subst. clear E E' Es.
  assert (G : forall m i j, eassemble A' th m i j = eassemble A th m i j).
  { intros m i j. unfold eassemble. rewrite Ec, Eb.
    set (c := fun e => (if ec_pos e th then mctr (le_cons A) (ec_dofs e) (m (ec_whole e) th (ebase (le_base A) (ec_dofs e))) else mzero)).
    rewrite !(eover_mat _ _ c); try (intros g e a b; unfold c; destruct (ec_pos e th); [apply add_mat_eq|unfold mzero; ring]).
    f_equal. apply total_perm. now apply Permutation_sym. }
  intros i j. split; apply G.
Qed.
Theorem C218_refused : forall A th, le_set A = false -> cut_assemble A th = Fault AssertFailed.
Proof. intros A th E. unfold cut_assemble, assert_. now rewrite E. Qed.

Definition free_sys (m : nat) : sys := mkSys m 0 [] [] (fun _ => false) (fun _ => None) (fun _ => false) None.
Definition flat (a b : R) (side : bool) (ba bb : R) : epart :=
  mkPart (fun _ _ _ _ => a) (fun _ _ _ _ => b) (fun _ _ _ _ _ _ _ => 0) (fun _ _ _ _ _ _ _ => 0) side (fun _ _ _ _ _ => ba) (fun _ _ _ _ _ => bb).
(** a cut element: half of it is material *)
Definition half_cell : ecell := mkEcell [0%nat] (fun _ => true) (fun _ => [flat 1 1 false 0 0]) (flat 2 2 false 0 0).
Definition half_mesh : lei := mkLei (free_sys 1) [[half_cell]] true true (fun _ => true) None None.
Theorem C218_cut_refuted : exists A th, mesh_ok A /\ le_set A = true /\ forall MA MB, cut_assemble A th = Ok (MA, MB) ->
  exists x, admissible (le_cons A) x /\ bilinear (n (le_cons A)) MA x x = 2 * cut_form pt_A A th (le_base A) x x /\
    cut_form pt_A A th (le_base A) x x <> 0.
Proof.
  exists half_mesh, (fun _ => 0). assert (K : mesh_ok half_mesh).
  { split; [|split]; [|intros; discriminate|intros; discriminate]. intros e d [<-|[]] [<-|[]]; cbn; lia. }
  split; [exact K|]. split; [reflexivity|]. intros MA MB E. exists (fun _ => 1).
  assert (Ad : admissible (free_sys 1) (fun _ => 1)) by (intros i r _ E'; discriminate). split; [exact Ad|].
  destruct (C218_whole half_mesh (fun _ => 0) K eq_refl) as (MA' & MB' & E' & H). rewrite E in E'. inversion E'; subst.
  destruct (H _ _ Ad Ad) as (-> & _). split.
  - cbv -[Rplus Rmult IZR]. ring.
  - cbv -[Rplus Rmult IZR]. lra.
Qed.
(** unknowns of the void have no entry in either matrix: any number solves the eigenproblem there *)
Definition void_cell : ecell := mkEcell [1%nat] (fun _ => false) (fun _ => []) (flat 1 1 false 0 0).
Definition void_mesh : lei := mkLei (free_sys 2) [[half_cell; void_cell]] true true (fun _ => true) None None.
Theorem C218_void_refuted : exists A th MA MB, mesh_ok A /\ cut_assemble A th = Ok (MA, MB) /\
  exists y, admissible (le_cons A) y /\ (exists d, (d < n (le_cons A))%nat /\ y d <> 0) /\
  forall lambda i, (i < n (le_cons A))%nat ->
    sum (n (le_cons A)) (fun j => MA i j * y j) = lambda * sum (n (le_cons A)) (fun j => MB i j * y j).
Proof.
  exists void_mesh, (fun _ => 0). assert (K : mesh_ok void_mesh).
  { split; [|split]; [|intros; discriminate|intros; discriminate]. intros e d [<-|[<-|[]]] [<-|[]]; cbn; lia. }
  destruct (C218_whole void_mesh (fun _ => 0) K eq_refl) as (MA & MB & E & _). exists MA, MB. split; [exact K|]. split; [exact E|].
  exists (fun d => if (d =? 1)%nat then 1 else 0). split; [intros i r _ E'; discriminate|]. split; [exists 1%nat; cbn; split; [lia|lra]|].
  cbv [cut_assemble assert_ void_mesh le_set le_ranks concat] in E. unfold eassemble in E. cbn [existsb] in E. cbn in E. inversion E; subst.
  intros la [|[|i]] Hi; cbn in Hi; try lia; cbv -[Rplus Rmult IZR]; ring.
Qed.
(** an unknown constrained to one outside its element *)
Definition hang_sys : sys := mkSys 2 0 [] [] (fun _ => false) (fun d => if (d =? 1)%nat then Some [(0%nat, 1)] else None) (fun _ => false) None.
Theorem C218_hanging_refuted : exists A th, le_set A = true /\
  (forall e d, In e (all_cells A) -> In d (ec_dofs e) -> (d < n (le_cons A))%nat) /\
  (forall d r j c, row (le_cons A) d = Some r -> In (j, c) r -> (j < n (le_cons A))%nat /\ row (le_cons A) j = None) /\
  cut_assemble A th = Fault AssertFailed.
Proof.
  exists (mkLei hang_sys [[mkEcell [1%nat] (fun _ => true) (fun _ => []) (flat 1 1 false 0 0)]] true true (fun _ => true) None None), (fun _ => 0).
  split; [reflexivity|]. split; [|split].
  - intros e d [<-|[]] [<-|[]]; cbn; lia.
  - intros d r j c E I. cbn in E. destruct (Nat.eqb_spec d 1); [|discriminate]. inversion E; subst. destruct I as [I|[]]; inversion I; subst. cbn. auto.
  - reflexivity.
Qed.
Example C218_example : exists A th, mesh_ok A /\ le_set A = true /\ uncut A th (le_base A) /\
  cut_form pt_A A th (le_base A) (fun _ => 1) (fun _ => 1) = 3.
Proof.
  exists (mkLei (free_sys 1) [[mkEcell [0%nat] (fun _ => true) (fun _ => [flat 1 1 false 0 0; flat 2 1 false 0 0]) (flat 3 2 false 0 0)]] true true (fun _ => true) None None), (fun _ => 0).
  split; [|split; [reflexivity|split]].
  - split; [|split]; [|intros; discriminate|intros; discriminate]. intros e d [<-|[]] [<-|[]]; cbn; lia.
  - intros e [<-|[]] _ k l. cbv -[Rplus Rmult IZR]. split; ring.
  - cbv -[Rplus Rmult IZR]. ring.
Qed.

(** ** C219 *)
Definition given (A : lei) (th : params) (f : nat) : Prop :=
  le_set A = true /\ (le_topo A f = true -> le_vel A = true) /\
  (le_topo A f = true -> le_base A = None \/ forall e p, In e (all_cells A) -> ec_pos e th = true -> In p (ec_hi e th) -> pt_side p = false).
Lemma sens_ok A th f oldB U : mesh_ok A -> given A th f -> base_follows A th f U ->
  cut_sensitivity A th f oldB = Ok (sens_assemble A th pt_dA pt_bA f mzero, sens_assemble A th pt_dB pt_bB f oldB).
Proof.
  intros K (L & V & N) (_ & F). unfold cut_sensitivity. rewrite L. cbn [negb andb].
  assert (E1 : le_topo A f && negb (le_vel A) = false) by (destruct (le_topo A f); auto; now rewrite V). rewrite E1.
  assert (E2 : is_some (le_base A) && negb (is_some (le_dbase A)) = false) by (destruct (le_base A), (le_dbase A); easy || contradiction). rewrite E2.
  assert (E3 : le_topo A f && is_some (le_base A) && existsb (fun e => ec_pos e th && existsb pt_side (ec_hi e th)) (concat (le_ranks A)) = false).
  { destruct (le_topo A f); auto. destruct (N eq_refl) as [->|H]; auto. destruct (le_base A); auto. cbn. apply not_true_iff_false. intros E.
    apply existsb_exists in E. destruct E as (e & He & E). apply andb_true_iff in E. destruct E as (P & E). apply existsb_exists in E.
    destruct E as (p & Hp & E). rewrite (H e p He P Hp) in E. discriminate. }
  rewrite E3. assert (E4 : existsb (fun e => grows A th e && negb (length (ec_hi e th) =? 0)%nat) (concat (le_ranks A)) = false).
  { apply not_true_iff_false. intros E. apply existsb_exists in E. destruct E as (e & He & E). apply andb_true_iff in E. destruct E as (E & _).
    assert (X : existsb (grows A th) (all_cells A) = true) by (apply existsb_exists; eauto). rewrite (none_grows A th K) in X. discriminate. }
  now rewrite E4.
Qed.
Lemma form_rate A th f U m d b x y : base_follows A th f U ->
  (forall e k l, In e (all_cells A) -> (k < length (ec_dofs e))%nat -> (l < length (ec_dofs e))%nat ->
    is_derive (fun t => material_matrix m (at_ th f t) e (local_state (U t) e) k l) (th f)
      (srate A th d b f e (local_state (le_base A) e) (dstate A e) k l)) ->
  is_derive (fun t => cut_form m A (at_ th f t) (U t) x y) (th f)
    (total (fun e => local_form (ec_dofs e) (srate A th d b f e (local_state (le_base A) e) (dstate A e)) x y) (all_cells A)).
Proof.
  intros F H. unfold cut_form. apply (der_total (all_cells A) (fun e t => local_form (ec_dofs e) (material_matrix m (at_ th f t) e (local_state (U t) e)) x y)).
  intros e He. unfold local_form.
  apply (der_sum _ (fun k t => sum (length (ec_dofs e)) (fun l => x (nth k (ec_dofs e) O) * material_matrix m (at_ th f t) e (local_state (U t) e) k l * y (nth l (ec_dofs e) O)))).
  intros k Hk. apply (der_sum _ (fun l t => x (nth k (ec_dofs e) O) * material_matrix m (at_ th f t) e (local_state (U t) e) k l * y (nth l (ec_dofs e) O))).
  intros l Hl. eapply der_ext; [| |apply (der_scal (x (nth k (ec_dofs e) O) * y (nth l (ec_dofs e) O))), (H e k l He Hk Hl)].
  - intros t. cbv beta. ring.
  - ring.
Qed.
(** the first matrix is the derivative of the form of the cut structure; the second one is added to what was there *)
Theorem C219_sensitivity_partial : forall A th f U oldB x y, mesh_ok A -> given A th f -> base_follows A th f U ->
  (forall e, In e (all_cells A) -> material_rates A th f e (fun t => local_state (U t) e) (local_state (le_base A) e)
     (match le_base A with Some _ => local_state (le_dbase A) e | None => fun _ => 0 end)) ->
  admissible (le_cons A) x -> admissible (le_cons A) y ->
  exists DA DB, cut_sensitivity A th f oldB = Ok (DA, DB) /\
    is_derive (fun t => cut_form pt_A A (at_ th f t) (U t) x y) (th f) (bilinear (n (le_cons A)) DA x y) /\
    is_derive (fun t => cut_form pt_B A (at_ th f t) (U t) x y) (th f)
      (bilinear (n (le_cons A)) DB x y - bilinear (n (le_cons A)) oldB x y).
Proof.
  intros A th f U oldB x y K G F H Ax Ay. eexists _, _. split; [exact (sens_ok A th f oldB U K G F)|].
  rewrite !sens_form by auto. rewrite bilinear_zero. split; (eapply der_ext; [reflexivity| |apply (form_rate A th f U)]); eauto.
  - rewrite Rplus_0_l. reflexivity.
  - intros e k l He Hk Hl. exact (proj1 (H e He k l Hk Hl)).
  - rewrite Rplus_comm. unfold Rminus. rewrite Rplus_assoc, Rplus_opp_r, Rplus_0_r. reflexivity.
  - intros e k l He Hk Hl. exact (proj2 (H e He k l Hk Hl)).
Qed.
Lemma quadratic_bilinear m M x : quadratic m M x = bilinear m M x x.
Proof. unfold quadratic, bilinear. apply sum_ext. intros i _. rewrite <- sum_scal_l. apply sum_ext. intros; ring. Qed.
(** so the sensitivity of an eigenvalue, which hands over the mass matrix of the analysis, is wrong by the eigenvalue itself *)
Theorem C219_eigenvalue_refuted : forall A th f U MA MB lambda x a b, mesh_ok A -> given A th f -> base_follows A th f U ->
  (forall e, In e (all_cells A) -> material_rates A th f e (fun t => local_state (U t) e) (local_state (le_base A) e)
     (match le_base A with Some _ => local_state (le_dbase A) e | None => fun _ => 0 end)) ->
  admissible (le_cons A) x -> cut_assemble A th = Ok (MA, MB) -> bilinear (n (le_cons A)) MB x x <> 0 ->
  is_derive (fun t => cut_form pt_A A (at_ th f t) (U t) x x) (th f) a ->
  is_derive (fun t => cut_form pt_B A (at_ th f t) (U t) x x) (th f) b ->
  eigenvalue_sensitivity A th f MB lambda x = Ok ((a - lambda * b) / bilinear (n (le_cons A)) MB x x - lambda).
Proof.
  intros A th f U MA MB la x a b K G F H Ax E Z Da Db.
  destruct (C219_sensitivity_partial A th f U MB x x K G F H Ax Ax) as (DA & DB & Es & D1 & D2).
  unfold eigenvalue_sensitivity. rewrite Es. cbn [bind fst snd]. rewrite !quadratic_bilinear.
  rewrite (der_unique _ _ _ _ Da D1), (der_unique _ _ _ _ Db D2). f_equal. field. exact Z.
Qed.
(** the matrices of the analysis take cut elements whole, their sensitivities do not *)
Definition grow_part (c : R) : epart :=
  mkPart (fun th _ _ _ => c * th 0%nat) (fun _ _ _ _ => c) (fun _ _ _ _ _ _ _ => c) (fun _ _ _ _ _ _ _ => 0) false (fun _ _ _ _ _ => 0) (fun _ _ _ _ _ => 0).
Definition grow_cell : ecell := mkEcell [0%nat] (fun _ => true) (fun _ => [grow_part 1]) (grow_part 2).
Definition grow_mesh : lei := mkLei (free_sys 1) [[grow_cell]] true true (fun _ => false) None None.
Lemma grow_ok : mesh_ok grow_mesh.
Proof. split; [|split]; [|intros; discriminate|intros; discriminate]. intros e d [<-|[]] [<-|[]]; cbn; lia. Qed.
Theorem C219_inconsistent_refuted : exists A th f x, mesh_ok A /\ given A th f /\ admissible (le_cons A) x /\
  forall (MA : R -> matrix) (MB : R -> matrix) DA DB, (forall t, cut_assemble A (at_ th f t) = Ok (MA t, MB t)) ->
    cut_sensitivity A th f mzero = Ok (DA, DB) ->
    ~ is_derive (fun t => bilinear (n (le_cons A)) (MA t) x x) (th f) (bilinear (n (le_cons A)) DA x x).
Proof.
  exists grow_mesh, (fun _ => 1), 0%nat, (fun _ => 1). split; [apply grow_ok|]. split; [repeat split; cbn; intros; try discriminate; auto|].
  assert (Ad : admissible (free_sys 1) (fun _ => 1)) by (intros i r _ E'; discriminate). split; [exact Ad|].
  intros MA MB DA DB E Es D. assert (X : forall t, bilinear 1 (MA t) (fun _ => 1) (fun _ => 1) = 2 * t).
  { intros t. destruct (C218_whole grow_mesh (at_ (fun _ => 1) 0 t) grow_ok eq_refl) as (MA' & MB' & E' & H). rewrite E in E'. inversion E'; subst.
    destruct (H _ _ Ad Ad) as (Q & _). cbn [le_cons grow_mesh n free_sys] in Q. rewrite Q. cbv -[Rplus Rmult IZR]. ring. }
  assert (Y : bilinear 1 DA (fun _ => 1) (fun _ => 1) = 1).
  { cbn in Es. inversion Es; subst. cbv -[Rplus Rmult IZR]. ring. }
  cbn [le_cons grow_mesh n free_sys] in D. rewrite Y in D. 
  assert (D2 : is_derive (fun t => 2 * t) 1 1) by (eapply der_ext; [|reflexivity|exact D]; intros t; cbv beta; now rewrite X).
  assert (D3 : is_derive (fun t => 2 * t) 1 2) by (eapply der_ext; [| |apply (der_scal 2 (fun t => t)), is_derive_id]; [reflexivity|cbv -[Rplus Rmult IZR]; ring]).
  pose proof (der_unique _ _ _ _ D2 D3). lra.
Qed.
(** with a base solution the parameter of a level set stops the program; without a level set a null pointer is followed *)
Theorem C219_base_refuted : forall A th f X dX oldB e p, le_set A = true -> le_vel A = true -> le_topo A f = true ->
  le_base A = Some X -> le_dbase A = Some dX -> In e (all_cells A) -> ec_pos e th = true -> In p (ec_hi e th) -> pt_side p = true ->
  cut_sensitivity A th f oldB = Fault AssertFailed.
Proof.
  intros A th f X dX oldB e p L V T Bs Db He P Hp S. unfold cut_sensitivity. rewrite L, V, T, Bs, Db. cbn [negb andb is_some].
  assert (E : existsb (fun e => ec_pos e th && existsb pt_side (ec_hi e th)) (concat (le_ranks A)) = true).
  { apply existsb_exists. exists e. split; auto. rewrite P. cbn. apply existsb_exists. eauto. }
  now rewrite E.
Qed.
Theorem C219_unset_refuted : forall A th f oldB, le_set A = false -> le_vel A = true -> le_base A = None -> all_cells A <> [] ->
  cut_sensitivity A th f oldB = Fault NullDeref.
Proof.
  intros A th f oldB L V Bs Ne. unfold cut_sensitivity. rewrite L, V, Bs. cbn [negb andb is_some]. rewrite andb_false_r.
  unfold all_cells in Ne. destruct (concat (le_ranks A)); [contradiction|]. reflexivity.
Qed.
Theorem C219_velocity : forall A th f oldB, le_topo A f = true -> le_vel A = false -> cut_sensitivity A th f oldB = Fault AssertFailed.
Proof. intros A th f oldB T V. unfold cut_sensitivity. now rewrite T, V. Qed.
(** an element whose material grows with the parameter: boundary terms only *)
Definition move_cell : ecell := mkEcell [0%nat] (fun _ => true)
  (fun th => [mkPart (fun th _ _ _ => 3 * th 0%nat) (fun th _ _ _ => th 0%nat) (fun _ _ _ _ _ _ _ => 0) (fun _ _ _ _ _ _ _ => 0) true (fun _ _ _ _ _ => 3) (fun _ _ _ _ _ => 1)]) (flat 3 1 false 0 0).
Example C219_example : let A := mkLei (free_sys 1) [[move_cell]] true true (fun _ => true) None None in let th := fun _ : nat => 1 in
  mesh_ok A /\ given A th 0 /\ base_follows A th 0 (fun _ => None) /\
  (forall e, In e (all_cells A) -> material_rates A th 0 e (fun t => local_state None e) (local_state None e) (fun _ => 0)) /\
  exists MA MB, cut_assemble A th = Ok (MA, MB) /\ bilinear 1 MB (fun _ => 1) (fun _ => 1) <> 0.
Proof.
  assert (K : mesh_ok (mkLei (free_sys 1) [[move_cell]] true true (fun _ => true) None None)).
  { split; [|split]; [|intros; discriminate|intros; discriminate]. intros e d [<-|[]] [<-|[]]; cbn; lia. }
  cbv zeta. split; [exact K|]. split; [repeat split; cbn; auto|]. split; [split; cbn; auto|]. split.
  - intros e [<-|[]] k l Hk Hl. split; cbn; unfold total, part_rate; cbn [map lsum].
    + apply (der_ext (fun t => 3 * t) _ 1 (3 * 1)); [intros t; cbv -[Rplus Rmult IZR]; ring|cbn; ring|]. auto_derive; auto; ring.
    + apply (der_ext (fun t => t) _ 1 1); [intros t; cbv -[Rplus Rmult IZR]; ring|cbn; ring|]. auto_derive; auto; ring.
  - eexists _, _. split; [reflexivity|]. cbv -[Rplus Rmult IZR]. lra.
Qed.
Print Assumptions C218_whole.
Print Assumptions C218_matrices_partial.
Print Assumptions C218_distribution.
Print Assumptions C218_refused.
Print Assumptions C218_cut_refuted.
Print Assumptions C218_void_refuted.
Print Assumptions C218_hanging_refuted.
Print Assumptions C219_sensitivity_partial.
Print Assumptions C219_eigenvalue_refuted.
Print Assumptions C219_inconsistent_refuted.
Print Assumptions C219_base_refuted.
Print Assumptions C219_unset_refuted.
Print Assumptions C219_velocity.
