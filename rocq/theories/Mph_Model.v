(** Model of the assembly of a time step, /repo/src/base/transient_assembly.cpp, and of the solver for several coupled
    disciplines, /repo/src/solver/multiphysics_nonlinear_solver.cpp.
    Vectors and matrices are functions of the dof number.  PETSc and libMesh (index sets of a nested matrix, product with
    it, SNES, constraints) are modelled as far as the callbacks of MAST are seen by them; elements, disciplines and the
    user's update object are data.  Log output, options and the check verify_gateaux_derivatives (never called) are not
    modelled, nor is a solution function (_sol_function).  Reals stand for double. *)
From Coq Require Import List Arith Bool Reals.
From Verif Require Import Base Sens_Model.
Import ListNotations.
Open Scope R_scope.

(** * TransientAssembly *)
(** solution (0), velocity (1), acceleration (2), global or of one element *)
Definition quants : Type := nat -> vec.
(** what the transient solver computes for one element, transient_solver_base.h: elem_calculations (residual, Jacobian
    with respect to the unknown of the step), elem_linearized_jacobian_solution_product,
    elem_sensitivity_calculations, elem_sensitivity_contribution_previous_timestep *)
Record telem : Type := mkTe {
  tdofs : list nat;
  t_res : params -> quants -> vec;
  t_jac : params -> quants -> matrix;
  t_lin : params -> quants -> quants -> vec;
  t_dres : params -> nat -> quants -> vec;
  t_prev : params -> quants -> quants -> vec }.
(** The quantities at the new time, build_local_quantities (transient_solver_base.cpp L515-594): each is a multiple of
    the unknown plus a combination of the stored quantities of the step before; the factors depend on the scheme
    (area Trans). *)
Record scheme : Type := mkScheme { order : nat; al : nat -> R; hist_coef : nat -> nat -> R }.
(** the user's PostAssemblyOperation *)
Record post : Type := mkPost { post_r : vec -> vec -> vec; post_j : vec -> matrix -> matrix }.
Record tsys : Type := mkT {
  t_cons : sys;                (* number of dofs and constraint rows; its elements are not used *)
  t_ranks : list (list telem);
  t_scheme : scheme;
  t_post : option post }.

Section Transient.
Variables (T : tsys) (th : params).
Notation C := (t_cons T).
(** build_local_quantities: [prev] = the quantities at the last time *)
Definition quantities (prev : quants) (X : vec) : quants :=
  fun k d => al (t_scheme T) k * X d + sum (S (order (t_scheme T))) (fun m => hist_coef (t_scheme T) k m * prev m d).
(** build_perturbed_local_quantities, L655-732 *)
Definition perturbed (dX : vec) : quants := fun k d => al (t_scheme T) k * dX d.
(** set_element_data *)
Definition qgather (ds : list nat) (q : quants) : quants := fun k => gather ds (q k).

(** residual_and_jacobian, transient_assembly.cpp L60-173; [wr], [wj]: R, J given.  L144-150: without both the
    0 x 0 matrix of an element does not fit its dofs *)
Definition ta_res_elem (q : quants) (g : vec) (e : telem) : vec :=
  add_vector C (tdofs e) (t_res e th (qgather (tdofs e) q)) g.
Definition ta_jac_elem (q : quants) (g : matrix) (e : telem) : matrix :=
  add_matrix C (tdofs e) (t_jac e th (qgather (tdofs e) q)) g.
Definition over {A} (step : A -> telem -> A) (g : A) : A :=
  fold_left (fun g rk => fold_left step rk g) (t_ranks T) g.
Definition residual_and_jacobian (wr wj : bool) (prev : quants) (X : vec) : outcome (option vec * option matrix) :=
  let q := quantities prev X in
  if negb wr && negb wj && existsb (fun e => negb (length (tdofs e) =? 0)%nat) (concat (t_ranks T))
  then Fault AssertFailed
  else
    let r := over (ta_res_elem q) zero in
    let j := over (ta_jac_elem q) mzero in
    let r := match t_post T with Some p => post_r p X r | None => r end in
    let j := match t_post T with Some p => post_j p X j | None => j end in
    Ok (if wr then Some r else None, if wj then Some j else None).

(** linearized_jacobian_solution_product, L178-272: the post assembly operation is not called *)
Definition ta_lin_elem (q dq : quants) (g : vec) (e : telem) : vec :=
  add_vector C (tdofs e) (t_lin e th (qgather (tdofs e) q) (qgather (tdofs e) dq)) g.
Definition linearized_product (prev : quants) (X dX : vec) : vec :=
  over (ta_lin_elem (quantities prev X) (perturbed dX)) zero.

(** sensitivity_assemble, L277-387: [dprev] = the stored sensitivities of the quantities at the last time *)
Definition ta_sens_elem (f : nat) (q dprev : quants) (g : vec) (e : telem) : vec :=
  let ql := qgather (tdofs e) q in
  let v2 := t_prev e th ql (qgather (tdofs e) dprev) in
  let v := t_dres e th f ql in
  add_vector C (tdofs e) (fun k => v k + v2 k) g.
Definition sensitivity_assemble (f : nat) (prev dprev : quants) (X : vec) : vec :=
  over (ta_sens_elem f (quantities prev X) dprev) zero.
End Transient.

(** * MultiphysicsNonlinearSolverBase *)
(** ** the layout of the coupled vector, solve() L462-566: a nested matrix numbers its rows process by process and,
    within a process, block by block (MatNestGetISs, PETSc) *)
Definition nsum (n : nat) (f : nat -> nat) : nat := fold_right Nat.add O (map f (seq 0 n)).
Section Layout.
Variables (np nd : nat) (loc : nat -> nat -> nat).   (* dofs of a process (first) in a discipline (second) *)
Definition n_of (i : nat) : nat := nsum np (fun p => loc p i).
(** _n_dofs, L464-474 *)
Definition n_all : nat := nsum nd n_of.
Definition start (p i : nat) : nat := nsum p (fun q => nsum nd (loc q)) + nsum i (loc p).
Definition index_set (i : nat) : list nat := flat_map (fun p => seq (start p i) (loc p i)) (seq 0 np).
(** sys_sol.first_local_index() *)
Definition first_index (p i : nat) : nat := nsum p (fun q => loc q i).

(** VecGetSubVector / VecRestoreSubVector *)
Definition sub (l : list nat) (x : vec) : vec := fun k => x (nth k l O).
Fixpoint index_of (g : nat) (l : list nat) : option nat :=
  match l with
  | [] => None
  | a :: t => if (a =? g)%nat then Some O else match index_of g t with Some k => Some (S k) | None => None end
  end.
Definition put (l : list nat) (v x : vec) : vec := fun g => match index_of g l with Some k => v k | None => x g end.

(** ** disciplines: constraint rows with right hand sides, and what TransientAssembly computes, given the data the
    update object has left for it *)
Definition aux : Type := nat -> R.
Record disc : Type := mkD {
  d_row : nat -> option (list (nat * R) * R);
  d_res : aux -> vec -> vec;
  d_jac : aux -> vec -> matrix;
  d_lin : aux -> aux -> vec -> vec -> vec }.     (* data, its perturbation, solution, perturbation *)
(** enforce_constraints_exactly, libMesh *)
Definition enf (row : nat -> option (list (nat * R) * R)) (x : vec) : vec :=
  fun i => match row i with None => x i | Some (r, c) => lsum (map (fun e => snd e * x (fst e)) r) + c end.
Definition enf_hom (row : nat -> option (list (nat * R) * R)) (x : vec) : vec :=
  fun i => match row i with None => x i | Some (r, _) => lsum (map (fun e => snd e * x (fst e)) r) end.
(** PreResidualUpdate: what it computes from the solutions of the disciplines, for each discipline *)
Record updater : Type := mkU {
  at_solution : (nat -> vec) -> nat -> aux;
  at_perturbed : (nat -> vec) -> (nat -> vec) -> nat -> aux * aux }.
Record mst : Type := mkM {
  assem : nat -> option disc;             (* _discipline_assembly *)
  update : option updater;                (* _update *)
  data : nat -> aux; ddata : nat -> aux;  (* data of the update object *)
  mats : nat -> matrix;                   (* sys.matrix *)
  sols : nat -> vec;                      (* sys.solution *)
  locals : nat -> vec }.                  (* sys.current_local_solution *)

(** set_system_assembly, get_system_assembly, L425-454 *)
Definition set_system_assembly (i : nat) (d : disc) (s : mst) : outcome mst :=
  assert_ (i <? nd)%nat
  match assem s i with
  | Some _ => Fault AssertFailed
  | None => Ok (mkM (upd (assem s) i (Some d)) (update s) (data s) (ddata s) (mats s) (sols s) (locals s))
  end.
Definition get_system_assembly (s : mst) (i : nat) : outcome disc :=
  assert_ (i <? nd)%nat match assem s i with Some d => Ok d | None => Fault AssertFailed end.

(** the solutions of the disciplines, constrained in place: L185-208 and L313-335 *)
Definition constrain_all (s : mst) (x : vec) : outcome vec :=
  loop nd (fun i x => d <- get_system_assembly s i ;;
                      Ok (put (index_set i) (enf (d_row d) (sub (index_set i) x)) x)) x.
Definition subs (x : vec) : nat -> vec := fun i => sub (index_set i) x.
Definition with_update (s : mst) (x : vec) : nat -> aux :=
  match update s with Some u => at_solution u (subs x) | None => data s end.
(** l2_norm of a vector of a discipline *)
Definition norm2 (n : nat) (v : vec) : R := sqrt (sum n (fun k => v k ^ 2)).
(** __mast_multiphysics_petsc_snes_residual, L161-277: new state, the vector x afterwards, r, the printed norms *)
Definition snes_residual (s : mst) (x r : vec) : outcome (mst * vec * vec * list R * R) :=
  x <- constrain_all s x ;;
  let a := with_update s x in
  rn <- loop nd (fun i (acc : vec * list R * R) =>
          d <- get_system_assembly s i ;;
          let v := d_res d (a i) (subs x i) in
          let l2 := norm2 (n_of i) v in
          Ok (put (index_set i) v (fst (fst acc)), snd (fst acc) ++ [l2], snd acc + l2 ^ 2)) (r, [], 0) ;;
  Ok (mkM (assem s) (update s) a (ddata s) (mats s) (sols s) (locals s), x, fst (fst rn), snd (fst rn), sqrt (snd rn)).
(** __mast_multiphysics_petsc_snes_jacobian, L283-386 *)
Definition snes_jacobian (s : mst) (x : vec) : outcome (mst * vec) :=
  x <- constrain_all s x ;;
  let a := with_update s x in
  m <- loop nd (fun i m => d <- get_system_assembly s i ;; Ok (upd m i (d_jac d (a i) (subs x i)))) (mats s) ;;
  Ok (mkM (assem s) (update s) a (ddata s) m (sols s) (locals s), x).
(** __mast_multiphysics_petsc_mat_mult, L46-155: product of block (i, j) with [dx], which is constrained in place;
    [x] is the current solution of SNES *)
Definition mat_mult (s : mst) (x : vec) (i j : nat) (dx : vec) : outcome (mst * vec * vec) :=
  dj <- get_system_assembly s j ;;
  let dx := enf_hom (d_row dj) dx in
  let dsols := fun k => if (k =? j)%nat then dx else zero in
  let '(a, da) := match update s with
                  | Some u => (fun k => fst (at_perturbed u (subs x) dsols k), fun k => snd (at_perturbed u (subs x) dsols k))
                  | None => (data s, ddata s)
                  end in
  di <- get_system_assembly s i ;;
  Ok (mkM (assem s) (update s) a da (mats s) (sols s) (locals s), dx, d_lin di (a i) (da i) (subs x i) (dsols i)).
(** product with the nested matrix (PETSc, MatMult_Nest): row by row, block by block; the sub-vectors of the argument
    are the argument's own memory *)
Definition mat_vec (n : nat) (m : matrix) (v : vec) : vec := fun k => sum n (fun l => m k l * v l).
Definition block_step (x : vec) (i j : nat) (a : mst * vec * vec) : outcome (mst * vec * vec) :=
  let '(s, dx, y) := a in
  let v := sub (index_set j) dx in
  if (i =? j)%nat
  then Ok (s, dx, fun k => y k + mat_vec (n_of i) (mats s i) v k)
  else r <- mat_mult s x i j v ;;
       let '(s, v, w) := r in Ok (s, put (index_set j) v dx, fun k => y k + w k).
Definition nest_mult (s : mst) (x dx y : vec) : outcome (mst * vec * vec) :=
  loop nd (fun i (a : mst * vec * vec) =>
    let '(s, dx, y) := a in
    r <- loop nd (block_step x i) (s, dx, zero) ;;
    let '(s, dx, yi) := r in Ok (s, dx, put (index_set i) yi y)) (s, dx, y).

(** ** solve(), L460-747.  [snes] stands for SNESSolve: it is given the state and the initial vector and leaves the final
    vector, the data of the update object and the matrices *)
Definition copy_in (sols : nat -> vec) (x : vec) : vec :=
  fold_left (fun x i =>
    let l := index_set i in
    put l (fold_left (fun v k => upd v k (sols i k))
                     (flat_map (fun p => seq (first_index p i) (loc p i)) (seq 0 np)) (sub l x)) x) (seq 0 nd) x.
Definition copy_out (x : vec) (sols : nat -> vec) : nat -> vec :=
  fold_left (fun sols i =>
    let l := index_set i in
    upd sols i (fold_left (fun v k => upd v k (sub l x k))
                          (flat_map (fun p => seq (first_index p i) (loc p i)) (seq 0 np)) (sols i))) (seq 0 nd) sols.
Definition solve (snes : mst -> vec -> vec * (nat -> aux) * (nat -> aux) * (nat -> matrix)) (s : mst) (x0 : vec)
  : outcome mst :=
  if forallb (fun i => match assem s i with Some _ => true | None => false end) (seq 0 nd) then
    if (nd =? 0)%nat then Fault OutOfBounds      (* &_sub_mats[0] *)
    else
      let '(x, a, da, m) := snes s (copy_in (sols s) x0) in
      Ok (mkM (assem s) (update s) a da m (copy_out x (sols s)) (locals s))
  else Fault AssertFailed.
End Layout.
