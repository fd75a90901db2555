(** Model of the continuation solvers: /repo/src/solver/continuation_solver_base.cpp,
    arclength_continuation_solver.cpp, pseudo_arclength_continuation_solver.cpp.
    The linear solver is an oracle [slv : matrix -> rhs -> solution]; constraint rows
    (enforce_constraints_exactly) are not modelled. *)
From Coq Require Import Reals List Arith Bool.
From Verif Require Import Base.
Import ListNotations.
Open Scope R_scope.

Definition rlt (a b : R) : bool := if Rlt_dec a b then true else false.

(** ** solve(), continuation_solver_base.cpp:93-181 *)
Record cparams : Type := mkC {
  max_it : nat; abs_tol : R; rel_tol : R; min_step : R; max_step : R;
  change_exponent : R; desired_iters : nat }.
(** constructor defaults, 37-55 *)
Definition cdefault : cparams := mkC 10 (1 / 100000000) (1 / 100000000) 2 20 (1/2) 5.

Section Solve.
  (** [X] = state and load parameter, [D] = data of the derived class (search direction).
      [nr arc x d] = _solve_NR_iterate, [norm arc x d] = _res_norm, which may also update the direction
      (pseudo_arclength _g). *)
  Variables X D : Type.
  Variable c : cparams.
  Variable nr : R -> X -> D -> X * D.
  Variable norm : R -> X -> D -> R * D.

  Definition converged (norm0 r : R) : bool := rlt r (abs_tol c) || rlt (r / norm0) (rel_tol c).

  (** the while loop; [x0,d0] are _X0,_p0 and the data of _save_iteration_data *)
  Fixpoint nr_loop (fuel : nat) (norm0 : R) (x0 : X) (d0 : D) (iter : nat) (arc : R) (x : X) (d : D)
    : outcome (nat * R * X * D) :=
    match fuel with
    | O => Fault OutOfFuel
    | S k =>
        let '(x, d) := nr arc x d in
        let '(r, d) := norm arc x d in
        let iter := S iter in
        if Nat.leb (max_it c) iter then
          if rlt (min_step c) arc then
            (* retry with a smaller step: state, parameter and direction are restored *)
            nr_loop k norm0 x0 d0 0 (Rmax (min_step c) (/2 * arc)) x0 d0
          else Ok (iter, arc, x, d)
        else if converged norm0 r then Ok (iter, arc, x, d)
        else nr_loop k norm0 x0 d0 iter arc x d
    end.

  (** the step-size update, 163-178; (iter + 1) and the power are real *)
  Definition next_arc (iter : nat) (arc : R) : R :=
    if Nat.eqb iter 0 then arc else
    let factor := Rpower (INR (desired_iters c) / (INR iter + 1)) (change_exponent c) in
    if rlt 1 factor then Rmin (max_step c) (factor * arc)
    else if rlt factor 1 then Rmax (min_step c) (factor * arc)
    else arc.

  Definition csolve (fuel : nat) (arc : R) (x : X) (d : D) : outcome (nat * R * X * D) :=
    let '(norm0, d1) := norm arc x d in
    r <- nr_loop fuel norm0 x d 0 arc x d1 ;;
    let '(iter, arc, x', d') := r in
    Ok (iter, next_arc iter arc, x', d').
End Solve.
Arguments nr_loop {X D}.
Arguments csolve {X D}.

(** ** Linear algebra of one step *)
Definition vec : Type := nat -> R.
Definition matrix : Type := nat -> nat -> R.
Definition dot (n : nat) (a b : vec) : R := sum n (fun i => a i * b i).
Definition mul (n : nat) (A : matrix) (x : vec) : vec := fun i => sum n (fun j => A i j * x j).

Section Step.
  Variable n : nat.
  Variable slv : matrix -> vec -> vec.      (* system.linear_solver->solve *)

  (** _solve_schur_factorization, 422-566.  [given_dXdp] = Some when update_dfdp and update_dXdp are
      both false: the vector passed in is used. *)
  Definition schur (jac : matrix) (f dfdp : vec) (given_dXdp : option vec) (dgdX : vec) (dgdp g : R)
    : vec * R :=
    let r1 := slv jac f in
    let dXdp := match given_dXdp with Some v => v | None => fun i => -1 * slv jac dfdp i end in
    let a := dgdp + dot n dgdX dXdp in
    let dp := 1 / a * (- g + dot n dgdX r1) in
    let rhs : vec := fun i => -1 * (f i + dp * dfdp i) in
    (slv jac rhs, dp).

  (** _solve, 185-415: the bordered matrix and right-hand side of size n+1; [big] is KSPSolve *)
  Variable big : matrix -> vec -> vec.
  Definition bordered_matrix (jac : matrix) (dfdp dgdX : vec) (dgdp : R) : matrix := fun i j =>
    if Nat.eqb i n then (if Nat.eqb j n then dgdp else dgdX j)
    else (if Nat.eqb j n then dfdp i else jac i j).
  Definition bordered_rhs (f : vec) (g : R) : vec := fun i => -1 * (if Nat.eqb i n then g else f i).
  Definition bordered (jac : matrix) (f dfdp dgdX : vec) (dgdp g : R) : vec * R :=
    let sol := big (bordered_matrix jac dfdp dgdX dgdp) (bordered_rhs f g) in
    ((fun i => if Nat.ltb i n then sol i else 0), sol n).

  (** ** Arclength: _g, arclength:194-230; [dXdp] from _dXdp 124-170 *)
  Definition arc_dpds (sign X_scale p_scale : R) (dXdp : vec) : R :=
    sign * sqrt (1 / ((X_scale / p_scale)^2 * dot n dXdp dXdp + 1)).
  Definition arc_g (sign X_scale p_scale arc : R) (X0 : vec) (p0 : R) (dXdp : vec) (X : vec) (p : R) : R :=
    let dpds := arc_dpds sign X_scale p_scale dXdp in
    (X_scale * (dot n (fun i => X i - X0 i) dXdp * dpds * X_scale / p_scale) +
     p_scale * (p - p0) * dpds) - arc.
  Definition arc_dgdp (sign X_scale p_scale : R) (dXdp : vec) : R :=
    p_scale * arc_dpds sign X_scale p_scale dXdp.
  Definition arc_dgdX (sign X_scale p_scale : R) (dXdp : vec) : vec := fun i =>
    X_scale * (arc_dpds sign X_scale p_scale dXdp * X_scale / p_scale) * dXdp i.
  (** _solve_NR_iterate, arclength:78-120 with the Schur option: dXdp is computed in _g with the matrix
      currently stored in the system ([jold], assembled at an earlier state), the solve uses the Jacobian
      at the present state ([jnew]). *)
  Definition arc_dXdp (jold : matrix) (dfdp : vec) : vec := fun i => -1 * slv jold dfdp i.
  Definition arc_iterate (sign X_scale p_scale arc : R) (X0 : vec) (p0 : R) (jold jnew : matrix)
      (f dfdp X : vec) (p : R) : vec * R :=
    let dXdp := arc_dXdp jold dfdp in
    schur jnew f dfdp (Some dXdp) (arc_dgdX sign X_scale p_scale dXdp) (arc_dgdp sign X_scale p_scale dXdp)
          (arc_g sign X_scale p_scale arc X0 p0 dXdp X p).

  (** initialize, arclength:44-74, pseudo:45-81 *)
  Definition init_scales (dX : vec) (dp : R) : R * R := (1 / sqrt (dot n dX dX), 1 / Rabs dp).
  Definition init_arc (dX : vec) (dp : R) : R :=
    let '(xs, ps) := init_scales dX dp in sqrt (ps^2 * dp * dp + xs^2 * (sqrt (dot n dX dX))^2).
  Definition pseudo_init (dX : vec) (dp : R) : vec * R :=
    let '(xs, ps) := init_scales dX dp in
    let a := init_arc dX dp in
    ((fun i => xs / a * dX i), ps * dp / a).

  (** ** Pseudo-arclength: _update_search_direction 143-201 (both solve options), _g 226-244 *)
  Definition normalise (t : vec) (tp : R) : vec * R :=
    let val := sqrt (tp * tp + (sqrt (dot n t t))^2) in
    ((fun i => 1 / val * t i), tp / val).
  Definition pseudo_direction (use_schur : bool) (X_scale p_scale : R) (jac : matrix) (dfdp : vec)
      (t0 : vec) (t0p : R) : vec * R :=
    let df : vec := fun i => X_scale / p_scale * dfdp i in
    let '(t1, t1p) := if use_schur then schur jac (fun _ => 0) df None t0 t0p (-1)
                      else bordered jac (fun _ => 0) df t0 t0p (-1) in
    normalise t1 t1p.
  Definition pseudo_g (X_scale p_scale arc : R) (X0 : vec) (p0 : R) (t1 : vec) (t1p : R) (X : vec) (p : R) : R :=
    (X_scale * dot n (fun i => X i - X0 i) t1 + p_scale * (p - p0) * t1p) - arc.
  (** _solve_NR_iterate, pseudo:85-139: dgdX = X_scale t1, dgdp = p_scale t1p *)
  Definition pseudo_iterate (use_schur : bool) (X_scale p_scale arc : R) (X0 : vec) (p0 : R)
      (jac : matrix) (f dfdp t0 : vec) (t0p : R) (X : vec) (p : R) : vec * R :=
    let '(t1, t1p) := pseudo_direction use_schur X_scale p_scale jac dfdp t0 t0p in
    let g := pseudo_g X_scale p_scale arc X0 p0 t1 t1p X p in
    let dgdX : vec := fun i => X_scale * t1 i in
    let dgdp := t1p * p_scale in
    if use_schur then schur jac f dfdp None dgdX dgdp g
    else bordered jac f dfdp dgdX dgdp g.
End Step.
