(** Model of the assembly of a nonlinear structure cut by a level set,
    /repo/src/level_set/level_set_nonlinear_implicit_assembly.cpp.
    The intersection of an element with the level set (areas Isec, Refi), the element operations, the output, the
    condensation (area Cond), the indicator and libMesh's constraints are data.  Vectors and matrices are functions of the
    index.  Not modelled: plots, the solution function, the post assembly object (area Mph) and localisation of vectors.
    Reals stand for double. *)
From Coq Require Import List Arith Bool Reals.
From Verif Require Import Base RBool Sens_Model.
Import ListNotations.
Open Scope R_scope.

(** What the element operations and the output compute on one sub-element (LevelSetIntersectedElem), or on the whole
    element.  [pc_side]: elem_topology_sensitivity_calculations (structural_nonlinear_assembly.cpp L243-283) finds a
    side on the level set boundary; without one it leaves its argument as it is. *)
Record piece : Type := mkPiece {
  pc_res : params -> vec -> vec;                  (* elem_calculations, residual *)
  pc_jac : params -> vec -> matrix;               (* elem_calculations, Jacobian *)
  pc_dres : params -> nat -> vec -> vec;          (* elem_sensitivity_calculations *)
  pc_side : bool;
  pc_bnd : params -> nat -> vec -> vec;           (* elem_topology_sensitivity_calculations *)
  pc_q : params -> vec -> R;                      (* output.evaluate *)
  pc_qx : params -> vec -> vec;                   (* output.output_derivative_for_elem *)
  pc_qs : params -> nat -> vec -> vec -> R;       (* output.evaluate_sensitivity, given sol and dsol *)
  pc_qb : params -> nat -> vec -> R }.            (* output.evaluate_topology_sensitivity *)

Record lcell : Type := mkLcell {
  lc_dofs : list nat;
  lc_nodes : list R;                              (* the indicator at the nodes *)
  lc_neg : params -> bool;                        (* if_elem_on_negative_phi *)
  lc_pos : params -> bool;                        (* if_elem_has_positive_phi_region *)
  lc_hi : params -> list piece;                   (* get_sub_elems_positive_phi *)
  lc_lo : params -> list piece;                   (* get_sub_elems_negative_phi *)
  lc_frac : params -> R;                          (* get_positive_phi_volume_fraction *)
  lc_whole : piece;                               (* the element itself, GeomElem *)
  lc_factor : bool;                               (* _dof_handler->if_factor_element *)
  lc_store : vec -> vec;                          (* _dof_handler->solution_of_factored_element *)
  lc_cond : matrix -> vec -> list nat * matrix * vec }.  (* element_factored_residual_and_jacobian *)

Record lna : Type := mkLna {
  la_cons : sys;                                  (* dofs and constraint rows; its elements are not used *)
  la_ranks : list (list lcell);
  la_set : bool;                                  (* _level_set (and _intersection) set *)
  la_ind : bool;                                  (* _indicator set *)
  la_low : bool;                                  (* _evaluate_output_on_negative_phi *)
  la_handler : bool;                              (* _dof_handler exists *)
  la_topo : nat -> bool;                          (* f.is_topology_parameter() *)
  la_vel : bool;                                  (* _velocity set *)
  la_dep : option (lcell -> nat -> bool);         (* if_elem_depends_on_parameter *)
  la_override : bool }.                           (* _param_dependence->override_flag *)

Section Lna.
Variables (A : lna) (th : params).
Notation C := (la_cons A).

Definition tol : R := / 10 ^ 10.
(** nd_indicator.maxCoeff(), L389-397: Ones(1) without indicator *)
Definition max_coeff (l : list R) : R :=
  match l with [] => 0 | a :: t => fold_left (fun m x => if rltb m x then x else m) t a end.
Definition nd_indicator (e : lcell) : R := if la_ind A then max_coeff (lc_nodes e) else max_coeff [1].
(** L419-420 *)
Definition counts (e : lcell) : bool := rltb tol (nd_indicator e) && lc_pos e th.
(** L407-408 *)
Definition blank (e : lcell) : bool := lc_neg e th || rltb (nd_indicator e) tol.
(** _dof_handler && _dof_handler->if_factor_element *)
Definition factored (e : lcell) : bool := la_handler A && lc_factor e.
(** L429-435 *)
Definition lsol (X : vec) (e : lcell) : vec :=
  if factored e then lc_store e (gather (lc_dofs e) X) else gather (lc_dofs e) X.

Definition vplus (a b : vec) : vec := fun k => a k + b k.
Definition mplus (a b : matrix) : matrix := fun k l => a k l + b k l.
Definition vscale (c : R) (a : vec) : vec := fun k => a k * c.
Definition mscale (c : R) (a : matrix) : matrix := fun k l => a k l * c.
(** L468-472: vec(material_rows[i]) = res_factored_u(i), on a zero vector *)
Definition place (rows : list nat) (r : vec) : vec :=
  fold_left (fun v i => upd v (nth i rows O) (r i)) (seq 0 (length rows)) zero.
(** L467, L474-475: the same for the matrix, on 1e-6 times the identity *)
Definition place_mat (rows : list nat) (j : matrix) : matrix :=
  fold_left (fun m i => fold_left (fun m k => upd m (nth i rows O) (upd (m (nth i rows O)) (nth k rows O) (j i k)))
                          (seq 0 (length rows)) m)
    (seq 0 (length rows)) (ident (/ 10 ^ 6)).

(** L437-511, one element: vec and mat.  [wj]: J given; without J the Jacobians of the sub-elements are not asked for
    (and mat is not used) *)
Definition cell_vec_mat (X : vec) (e : lcell) : vec * matrix :=
  let x := lsol X e in
  if factored e then
    let mat := mscale (lc_frac e th) (pc_jac (lc_whole e) th x) in
    let vec := vscale (lc_frac e th) (pc_res (lc_whole e) th x) in
    let '(rows, juu, ru) := lc_cond e mat vec in
    (place rows ru, place_mat rows juu)
  else
    fold_left (fun s p => (vplus (fst s) (pc_res p th x), mplus (snd s) (pc_jac p th x))) (lc_hi e th) (zero, mzero).
Definition lres_cell (X g : vec) (e : lcell) : vec :=
  if counts e then add_vector C (lc_dofs e) (fst (cell_vec_mat X e)) g else g.
Definition ljac_cell (X : vec) (g : matrix) (e : lcell) : matrix :=
  let g := if blank e then add_matrix C (lc_dofs e) (ident (/ 10 ^ 14)) g else g in
  if counts e then add_matrix C (lc_dofs e) (snd (cell_vec_mat X e)) g else g.
Definition lover {B} (step : B -> lcell -> B) (g : B) : B :=
  fold_left (fun g rk => fold_left step rk g) (la_ranks A) g.
(** residual_and_jacobian, L321-548; with neither R nor J the empty matrix of L528 does not fit the dofs *)
Definition lresidual_and_jacobian (wr wj : bool) (X : vec) : outcome (option vec * option matrix) :=
  assert_ (la_set A)
  (if negb wr && negb wj && existsb (fun e => counts e && negb (length (lc_dofs e) =? 0)%nat) (concat (la_ranks A))
   then Fault AssertFailed
   else Ok (if wr then Some (lover (lres_cell X) zero) else None,
            if wj then Some (lover (ljac_cell X) mzero) else None)).

(** sensitivity_assemble, L552-765 *)
(** L625-629 *)
Definition lskip (f : nat) (e : lcell) : bool :=
  match la_dep A with Some d => negb (d e f) | None => false end.
(** L674-737, one sub-element: (vec_total, vec2) *)
Definition sens_piece (f : nat) (e : lcell) (x : vec) (s : vec * vec) (p : piece) : vec * vec :=
  let vec1 := pc_dres p th f x in
  let vec2 := if la_topo A f then (if pc_side p then pc_bnd p th f x else snd s) else snd s in
  let vec1 := if la_topo A f then vplus vec1 vec2 else vec1 in
  if factored e then
    let mat := mscale (lc_frac e th) (pc_jac (lc_whole e) th x) in
    let vec2 := pc_res (lc_whole e) th x in
    let '(rows, _, ru) := lc_cond e mat vec1 in
    (vplus (fst s) (place rows ru), vec2)
  else (vplus (fst s) vec1, vec2).
Definition lsens_cell (f : nat) (X g : vec) (e : lcell) : vec :=
  if lskip f e then g
  else if counts e then
    add_vector C (lc_dofs e) (fst (fold_left (sens_piece f e (lsol X e)) (lc_hi e th) (zero, zero))) g
  else g.
(** L562: velocity needed for a topology parameter; _level_set is not checked, L631 reads _intersection *)
Definition lsensitivity_assemble (f : nat) (X : vec) : outcome vec :=
  if la_topo A f && negb (la_vel A) then Fault AssertFailed
  else if negb (la_set A) && existsb (fun e => negb (lskip f e)) (concat (la_ranks A)) then Fault NullDeref
  else Ok (lover (lsens_cell f X) zero).

(** calculate_output, L771-928: the output adds up what evaluate computes *)
Definition lout_cell (X : vec) (q : R) (e : lcell) : R :=
  let x := lsol X e in
  let q := if la_low A then fold_left (fun q p => q + pc_q p th x) (lc_lo e th) q else q in
  if counts e then fold_left (fun q p => q + pc_q p th x) (lc_hi e th) q else q.
Definition lcalculate_output (X : vec) : outcome R := assert_ (la_set A) (Ok (lover (lout_cell X) 0)).

(** calculate_output_derivative, L934-1160 *)
Definition transp (m : matrix) : matrix := fun k l => m l k.
Definition outd_piece (e : lcell) (x : vec) (s : vec) (p : piece) : vec :=
  let vec1 := pc_qx p th x in
  if factored e then
    let mat := mscale (lc_frac e th) (pc_jac (lc_whole e) th x) in
    let '(rows, _, ru) := lc_cond e (transp mat) vec1 in
    vplus s (place rows ru)
  else vplus s vec1.
Definition loutd_cell (X g : vec) (e : lcell) : vec :=
  let x := lsol X e in
  let g := if la_low A && negb (length (lc_lo e th) =? 0)%nat
           then add_vector C (lc_dofs e) (fold_left (fun s p => vplus s (pc_qx p th x)) (lc_lo e th) zero) g else g in
  if counts e then add_vector C (lc_dofs e) (fold_left (outd_piece e x) (lc_hi e th) zero) g else g.
Definition lcalculate_output_derivative (X : vec) : outcome vec :=
  if negb (la_set A) && negb (length (concat (la_ranks A)) =? 0)%nat then Fault NullDeref
  else Ok (lover (loutd_cell X) zero).

(** calculate_output_direct_sensitivity, L1166-1378; [loc]: if_localize_sol_sens *)
(** L1244-1252 *)
Definition lskip_out (f : nat) (dX : option vec) (e : lcell) : bool :=
  lskip f e && match dX with None => true | Some _ => la_override A end.
Definition louts_piece (f : nat) (x dx : vec) (q : R) (p : piece) : R :=
  let q := q + pc_qs p th f x dx in
  if la_topo A f then q + pc_qb p th f x else q.
Definition louts_cell (f : nat) (X : vec) (dX : option vec) (q : R) (e : lcell) : R :=
  if lskip_out f dX e then q
  else
    let x := lsol X e in
    let dx := match dX with Some d => gather (lc_dofs e) d | None => zero end in
    let q := if la_low A then fold_left (louts_piece f x dx) (lc_lo e th) q else q in
    if counts e then fold_left (louts_piece f x dx) (lc_hi e th) q else q.
Definition lcalculate_output_direct_sensitivity (f : nat) (X : vec) (dX : option vec) (loc : bool) : outcome R :=
  assert_ (la_set A)
  (if la_topo A f && negb (la_vel A) then Fault AssertFailed
   else match dX, loc with
        | None, true => Fault NullDeref                      (* L1222: *dXdp *)
        | _, _ => Ok (lover (louts_cell f X dX) 0)
        end).
End Lna.

(** ** Attaching and detaching: what the object holds.  Functions of the user are numbers; [h_live]: the objects
    (intersection 0, dof handler 1, void solution 2) that are allocated. *)
Record hold : Type := mkHold {
  h_enable : bool;                (* _enable_dof_handler *)
  h_system : bool;                (* _system set *)
  h_level : option nat;           (* _level_set *)
  h_vel : option nat;             (* _velocity *)
  h_indic : option nat;           (* _indicator *)
  h_int : option nat;             (* _intersection: address *)
  h_dofh : option nat;            (* _dof_handler *)
  h_void : option nat;            (* _void_solution_monitor *)
  h_heap : list nat;              (* addresses allocated and not freed *)
  h_next : nat }.                 (* next address *)
Inductive hop : Type := SetLevel (l : nat) | SetIndicator (i : nat) | ClearLevel | SetVelocity (v : nat) | ClearVelocity.
(** L46-59 *)
Definition hold_new (enable sysset : bool) : hold := mkHold enable sysset None None None None None None [] 0.
(** delete p *)
Definition free (p : option nat) (h : list nat) : outcome (list nat) :=
  match p with
  | None => Ok h
  | Some a => if existsb (Nat.eqb a) h then Ok (filter (fun b => negb (a =? b)%nat) h) else Fault DoubleFree
  end.
Definition isNone {B} (o : option B) : bool := match o with None => true | _ => false end.
Definition hstep (h : hold) (o : hop) : outcome hold :=
  match o with
  | SetLevel l =>                                                 (* L103-120 *)
      assert_ (isNone (h_level h)) (assert_ (isNone (h_int h)) (assert_ (h_system h)
      (let a := h_next h in
       if h_enable h
       then Ok (mkHold true true (Some l) (h_vel h) (h_indic h) (Some a) (Some (S a)) (Some (S (S a)))
                  (a :: S a :: S (S a) :: h_heap h) (S (S (S a))))
       else Ok (mkHold false true (Some l) (h_vel h) (h_indic h) (Some a) (h_dofh h) (h_void h) (a :: h_heap h) (S a)))))
  | SetIndicator i =>                                             (* L125-132 *)
      assert_ (isNone (h_indic h)) (assert_ (h_system h)
      (Ok (mkHold (h_enable h) (h_system h) (h_level h) (h_vel h) (Some i) (h_int h) (h_dofh h) (h_void h) (h_heap h) (h_next h))))
  | ClearLevel =>                                                 (* L137-151 *)
      match h_int h with
      | None => Ok (mkHold (h_enable h) (h_system h) None (h_vel h) (h_indic h) None (h_dofh h) (h_void h) (h_heap h) (h_next h))
      | Some _ =>
          p <- free (h_int h) (h_heap h) ;; p <- free (h_dofh h) p ;; p <- free (h_void h) p ;;
          Ok (mkHold (h_enable h) (h_system h) None (h_vel h) (h_indic h) None None None p (h_next h))
      end
  | SetVelocity v =>                                              (* L157-166 *)
      assert_ (negb (isNone (h_level h))) (assert_ (negb (isNone (h_int h))) (assert_ (h_system h) (assert_ (isNone (h_vel h))
      (Ok (mkHold (h_enable h) (h_system h) (h_level h) (Some v) (h_indic h) (h_int h) (h_dofh h) (h_void h) (h_heap h) (h_next h))))))
  | ClearVelocity =>                                              (* L171-174 *)
      Ok (mkHold (h_enable h) (h_system h) (h_level h) None (h_indic h) (h_int h) (h_dofh h) (h_void h) (h_heap h) (h_next h))
  end.
Fixpoint hrun (h : hold) (l : list hop) : outcome hold :=
  match l with [] => Ok h | o :: t => h' <- hstep h o ;; hrun h' t end.
(** the destructor, L62-68 *)
Definition hdestroy (h : hold) : outcome (list nat) :=
  p <- free (h_int h) (h_heap h) ;; p <- free (h_dofh h) p ;; free (h_void h) p.
