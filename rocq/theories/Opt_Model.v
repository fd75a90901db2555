(** Model of the optimiser interfaces and of the gradient check
    (/repo/src/optimization/{nlopt,dot,gcmma,npsol}_optimization_interface.cpp and
    function_evaluation.cpp). *)
From Coq Require Import List Arith Lia Bool Reals ZArith.
From Verif Require Import Base RBool.
Import ListNotations.
Open Scope nat_scope.

(** ** The user's evaluation callback (function_evaluation.h L108-117)
    The callback receives the current contents of the output buffers and returns their new
    contents. *)
Record ebuf : Type := mkBuf { e_obj : R; e_dobj : arr R; e_f : arr R; e_df : arr R }.
Definition evaluator : Type := arr R -> bool -> arr bool -> ebuf -> ebuf.

Definition afill {A} (n : nat) (x : A) : arr A := fill n x.

(** ** NLopt *)

(** nlopt_optimization_interface.cpp L143-178 (objective_evaluation): value returned and the new
    contents of [grad] (None = null pointer).  The output call is modelled in Hist_Model. *)
Definition nlopt_objective (E : evaluator) (n_vars n_constr n : nat) (x : arr R)
  (grad : option (arr R)) : outcome (R * option (arr R)) :=
  assert_ (n =? n_vars)
  (let b := E x (match grad with Some _ => true | None => false end) (afill n_constr false)
              (mkBuf 0 (afill n 0%R) (afill n_constr 0%R) (afill (n * n_constr) 0%R)) in
   match grad with
   | None => Ok (e_obj b, None)
   | Some g => g' <- loop n (fun i g => v <- get (e_dobj b) i ;; set g i v) g ;;
               Ok (e_obj b, Some g')
   end).

(** nlopt_optimization_interface.cpp L182-233 (inequality_constraint_evaluation): new contents of
    [result] and of [gradient].  No statement of the function assigns [result].  (The
    uninitialised f0val L207 is 0 here.) *)
Definition nlopt_constraints (E : evaluator) (n_vars n_constr m : nat) (result : arr R) (n : nat)
  (x : arr R) (gradient : option (arr R)) : outcome (arr R * option (arr R)) :=
  assert_ (n =? n_vars)
  (assert_ (m =? n_constr)
   (let b := E x false (afill n_constr (match gradient with Some _ => true | None => false end))
               (mkBuf 0 (afill n 0%R) (afill n_constr 0%R) (afill (n * n_constr) 0%R)) in
    match gradient with
    | None => Ok (result, None)
    | Some g =>
        g' <- loop m (fun i g => loop n (fun j g =>
                v <- get (e_df b) (j * m + i) ;; set g (i * n + j) v) g) g ;;
        Ok (result, Some g')
    end)).

(** nlopt_optimization_interface.cpp L85, L118-122: nlopt_add_inequality_mconstraint receives the
    address of one Real; NLopt copies one tolerance per constraint (NLopt reference manual). *)
Definition nlopt_tolerances (m_ineq : nat) : outcome (arr R) :=
  loop m_ineq (fun i t => v <- get (mkArr 1 (fun _ => 1e-3)%R) i ;; set t i v)
    (afill m_ineq 0%R).

(** ** DOT *)

(** dot_optimization_interface.cpp L58-59: lengths of the work arrays. *)
Definition dot_nrwk (ndv ncon : nat) : nat := Nat.max (ndv * ncon * 10) 100000.
Definition dot_nriwk (ndv ncon : nat) : nat := Nat.max (ndv * ncon * 10) 300.

(** dot_optimization_interface.cpp L133-154: gradients copied to [WK] after INFO == 2.
    [IWK] holds one-based constraint numbers, [IPRM[19]] their count. *)
Definition dot_copy (ndv ncon : nat) (df0dx dfdx : arr R) (iprm iwk : arr nat) (wk : arr R)
  : outcome (arr R) :=
  wk <- loop ndv (fun i w => v <- get df0dx i ;; set w i v) wk ;;
  nact <- get iprm 19 ;;
  loop nact (fun i w =>
    id <- get iwk i ;;
    loop ndv (fun j w =>
      (* unsigned arithmetic: an id of 0 would index j*NCON-1 *)
      v <- (if j * ncon + id =? 0 then Fault OutOfBounds else get dfdx (j * ncon + id - 1)) ;;
      set w ((i + 1) * ndv + j) v) w) wk.

(** ** NPSOL *)

(** npsol_optimization_interface.cpp L257-269: bounds on the variables and the constraints. *)
Definition npsol_bounds (n ncnln : nat) (xmin xmax : arr R) : outcome (arr R * arr R) :=
  let bl := afill (n + 0 + ncnln) 0%R in
  let bu := afill (n + 0 + ncnln) 0%R in
  s <- loop n (fun i s => a <- get xmin i ;; l <- set (fst s) i a ;;
                          b <- get xmax i ;; u <- set (snd s) i b ;; Ok (l, u)) (bl, bu) ;;
  loop ncnln (fun i s => l <- set (fst s) (i + n) (- 1e20)%R ;;
                         u <- set (snd s) (i + n) 0%R ;; Ok (l, u)) s.

(** npsol_optimization_interface.cpp L117-127, L130-164: the keys of the message tables. *)
Definition exit_keys : list Z := [0;10;40;60;70;80;90;100;120;130;140]%Z.
Definition info_keys : list Z :=
  [1;2;3;11;12;13;14;15;16;21;22;31;32;33;41;42;43;44;51;52;56;61;62;63;71;72;73;74;
   81;82;83;84;91;92;141;142]%Z.
Definition zmem (x : Z) (l : list Z) : bool := existsb (Z.eqb x) l.

(** npsol_optimization_interface.cpp L323-336 (_print_termination_message): the pair (exit
    category, INFORM) that is printed.  C++ [%] truncates towards zero. *)
Definition npsol_message (inform : Z) : outcome (Z * Z) :=
  let exit := (Z.rem inform 10 * 10)%Z in
  assert_ (zmem exit exit_keys) (assert_ (zmem inform info_keys) (Ok (exit, inform))).

(** ** GCMMA *)
Definition vec : Type := nat -> R.

Record gstate : Type := mkG {
  g_iter : nat;                 (* ITER and ITE, always equal *)
  g_x : vec; g_old1 : vec; g_old2 : vec;   (* XVAL, XOLD1, XOLD2 *)
  g_f0 : R;                     (* F0VAL *)
  g_f0s : arr R;                (* f0_iters *)
  g_trace : list vec;           (* every point handed to evaluate *)
  g_objs : list R               (* the F0VAL recorded at the end of each outer iteration *)
}.

Section Gcmma.
Context (M : nat).                    (* number of constraints *)
Context (f0 : vec -> R) (fc : vec -> nat -> R).   (* the user's objective and constraints *)
Context (mma : gstate -> nat -> list vec -> vec). (* mmasug_: subproblem solution (external) *)
Context (conser : gstate -> nat -> vec -> bool).  (* conser_: ICONSE == 1 (external) *)
Context (innmax max_iters nrel : nat) (geps : R).

(** gcmma_optimization_interface.cpp L275-291: [while (FNEW[0] > 1.e2)].  [cur] is the point last
    evaluated (XMMA_new).  FNEW[0] does not exist when there is no constraint. *)
Fixpoint backtrack (fuel : nat) (frac : R) (old1 xmma cur : vec) (tr : list vec)
  : outcome (vec * list vec) :=
  if M =? 0 then Fault OutOfBounds else
  if rltb 100 (fc cur 0) then
    match fuel with
    | O => Fault OutOfFuel
    | S k => let nw := fun i => (old1 i + frac * (xmma i - old1 i))%R in
             backtrack k (frac * frac)%R old1 xmma nw (tr ++ [nw])
    end
  else Ok (cur, tr).

(** gcmma_optimization_interface.cpp L253-325: the inner loop; [rem] = INNMAX - INNER. *)
Fixpoint inner (fuel rem : nat) (g : gstate) (tr : list vec) : outcome (vec * list vec) :=
  let xmma := mma g (innmax - rem) tr in
  r <- backtrack fuel 0.02 (g_old1 g) xmma xmma (tr ++ [xmma]) ;;
  match rem with
  | O => Ok r
  | S k => if conser g (innmax - rem) (fst r) then Ok r else inner fuel k g (snd r)
  end.

(** gcmma_optimization_interface.cpp L350-361: relative change test on the buffer. *)
Definition rel_change (a : arr R) : outcome bool :=
  c <- get a (nrel - 1) ;;
  loop (nrel - 1) (fun i b =>
    v <- get a i ;;
    Ok (b && (if rltb (sqrt geps) c then rltb (Rabs (v - c) / Rabs c) geps
              else rltb (Rabs (v - c)) geps))%bool) true.

(** gcmma_optimization_interface.cpp L217-368: one outer iteration; the boolean is [terminate].
    xupdat_/fupdat_ (external) shift XVAL to XOLD1, XOLD1 to XOLD2 and install the accepted
    point, as the comment L327-331 says. *)
Definition outer (fuel : nat) (g : gstate) : outcome (gstate * bool) :=
  let tr := g_trace g ++ [g_x g] in
  let g1 := mkG (S (g_iter g)) (g_x g) (g_old1 g) (g_old2 g) (f0 (g_x g)) (g_f0s g) tr (g_objs g) in
  r <- inner fuel innmax g1 tr ;;
  let x' := fst r in
  let v := f0 x' in
  if nrel =? 0 then Fault DivByZero else
  buf <- set (g_f0s g) ((S (g_iter g) - 1) mod nrel) v ;;
  conv <- rel_change buf ;;
  Ok (mkG (S (g_iter g)) x' (g_x g) (g_old1 g) v buf (snd r) (g_objs g ++ [v]),
      ((S (g_iter g) =? max_iters) || conv)%bool).

(** gcmma_optimization_interface.cpp L217: [while (!terminate)]. *)
Fixpoint gcmma_loop (fuel : nat) (bfuel : nat) (g : gstate) : outcome gstate :=
  match fuel with
  | O => Fault OutOfFuel
  | S k => r <- outer bfuel g ;; if snd r then Ok (fst r) else gcmma_loop k bfuel (fst r)
  end.

(** gcmma_optimization_interface.cpp L103-110, L212: initial state (zero vectors, empty history). *)
Definition gcmma_init (x0 : vec) : gstate :=
  mkG 0 x0 (fun _ => 0%R) (fun _ => 0%R) 0 (afill nrel 0%R) [] [].
End Gcmma.

(** ** Gradient check *)

(** function_evaluation.cpp L361, L387: [fabs((a - fd)/a) > tol] in IEEE arithmetic: for a = 0 the
    quotient is infinite (greater) when fd <> 0 and NaN (not greater) when fd = 0. *)
Definition mismatch (a fd tol : R) : bool :=
  if reqb a 0 then negb (reqb fd 0) else rltb tol (Rabs ((a - fd) / a)).

(** function_evaluation.cpp L292-341: the finite difference loop. *)
Definition fd_loop (E : evaluator) (n m : nat) (x : arr R) (delta : R) (s : arr R * arr R)
  : outcome (arr R * arr R) :=
  loop n (fun i s =>
    xi <- get x i ;;
    xp <- set x i (xi + delta)%R ;;
    let bp := E xp false (afill m false) (mkBuf 0 (fst s) (afill m 0%R) (snd s)) in
    xpi <- get xp i ;;
    xm <- set xp i (xpi - 2 * delta)%R ;;
    let bm := E xm false (afill m false) (mkBuf 0 (e_dobj bp) (afill m 0%R) (e_df bp)) in
    og <- set (e_dobj bm) i ((e_obj bp - e_obj bm) / 2 / delta)%R ;;
    gg <- loop m (fun j gg => p <- get (e_f bp) j ;; q <- get (e_f bm) j ;;
                              set gg (i * m + j) ((p - q) / 2 / delta)%R) (e_df bm) ;;
    Ok (og, gg)) s.

(** function_evaluation.cpp L353-397: comparison. *)
Definition compare_grads (n m : nat) (tol : R) (og gg ogfd ggfd : arr R) : outcome bool :=
  b <- loop n (fun i b => a <- get og i ;; f <- get ogfd i ;;
                          Ok (if mismatch a f tol then false else b)) true ;;
  loop m (fun j b => loop n (fun i b =>
    a <- get gg (i * m + j) ;; f <- get ggfd (i * m + j) ;;
    Ok (if mismatch a f tol then false else b)) b) b.

(** function_evaluation.cpp L243-405 (verify_gradients); [m] is _n_eq + _n_ineq. *)
Definition verify_gradients (E : evaluator) (n m : nat) (x : arr R) : outcome bool :=
  let delta := 1e-5%R in
  let tol := 1e-3%R in
  let b := E x true (afill m true)
             (mkBuf 0 (afill n 0%R) (afill m 0%R) (afill (n * m) 0%R)) in
  s <- fd_loop E n m x delta (afill n 0%R, afill (n * m) 0%R) ;;
  compare_grads n m tol (e_dobj b) (e_df b) (fst s) (snd s).
