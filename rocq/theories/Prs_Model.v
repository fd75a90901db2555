(** Model of the pressure functions of the fluid, /repo/src/fluid/pressure_function.{h,cpp} and
    frequency_domain_pressure_function.cpp, and of the integrated pressure, surface_integrated_pressure_output.{h,cpp}.
    A solution is the function of the point that libMesh's MeshFunction makes of the vector; the states are those of area Flui. *)
From Coq Require Import List Arith Bool Reals.
From Coquelicot Require Import Complex.
From Verif Require Import Base RBool Flui_Model.
Import ListNotations.
Open Scope R_scope.

(** ** pressure_function *)
Definition where_ : Type := nat -> R.                       (* a point *)
Definition solution : Type := where_ -> vec.
Record pfun : Type := mkPf {
  pf_cp : bool;                                 (* _if_cp *)
  pf_ref : R;                                   (* _ref_pressure *)
  pf_sol : option solution;                     (* _sol_function *)
  pf_dsol : option solution }.                  (* _dsol_function *)
(** constructor, L36-47 *)
Definition pf0 : pfun := mkPf false 0 None None.
Inductive pcall : Type := SetCp (b : bool) | UseReference (r : R) | PInit (s : solution) (ds : option solution).
(** pressure_function.h L60-78, init L58-102 *)
Definition pstep (f : pfun) (c : pcall) : outcome pfun :=
  match c with
  | SetCp b => Ok (mkPf b (pf_ref f) (pf_sol f) (pf_dsol f))
  | UseReference r => assert_ (negb (pf_cp f)) (Ok (mkPf (pf_cp f) r (pf_sol f) (pf_dsol f)))
  | PInit s ds => Ok (mkPf (pf_cp f) (pf_ref f) (Some s) ds)
  end.
Fixpoint psteps (f : pfun) (l : list pcall) : outcome pfun :=
  match l with [] => Ok f | c :: t => g <- pstep f c ;; psteps g t end.
Section Pressure.
Variables (d : nat) (visc : bool) (fl : flight).
Notation cp := (g_cp (fl_gas fl)).
Notation cv := (g_cv (fl_gas fl)).
Definition over_q0 (x : R) : outcome R := if reqb (fl_q0 fl) 0 then Fault DivByZero else Ok (x / fl_q0 fl).
(** operator(), L109-147 *)
Definition pressure (f : pfun) (x : where_) : outcome R :=
  match pf_sol f with
  | None => Fault AssertFailed
  | Some s => q <- prim_init d cp cv visc (s x) ;;
      if pf_cp f then over_q0 (p_p q - g_p (fl_gas fl)) else Ok (p_p q - pf_ref f)
  end.
(** perturbation, L154-200 *)
Definition perturbation (f : pfun) (x : where_) : outcome R :=
  match pf_sol f, pf_dsol f with
  | Some s, Some ds => q <- prim_init d cp cv visc (s x) ;;
      let dp := d_p (pert_of d cp cv visc q (ds x)) in
      if pf_cp f then over_q0 dp else Ok dp
  | _, _ => Fault AssertFailed
  end.
(** frequency_domain_pressure_function.cpp L113-168: the same with a complex disturbance; the pressure of area Flui is linear in it,
    so the parts are computed one after the other here *)
Definition complex_perturbation (if_cp : bool) (s re im : solution) (x : where_) : outcome C :=
  q <- prim_init d cp cv visc (s x) ;;
  let a := d_p (pert_of d cp cv visc q (re x)) in
  let b := d_p (pert_of d cp cv visc q (im x)) in
  if if_cp then a' <- over_q0 a ;; b' <- over_q0 b ;; Ok (a', b') else Ok (a, b).
End Pressure.

(** ** surface_integrated_pressure_output *)
Inductive pmode : Type := L2Norm | UnitVec.
Definition v3 : Type := R * R * R.
Definition dot3 (a b : v3) : R := let '(a0, a1, a2) := a in let '(b0, b1, b2) := b in a0 * b0 + a1 * b1 + a2 * b2.
Definition len3 (a : v3) : R := sqrt (dot3 a a).
Definition div3 (a : v3) (c : R) : outcome v3 :=
  if reqb c 0 then Fault DivByZero else let '(a0, a1, a2) := a in Ok (a0 / c, a1 / c, a2 / c).
Record pout : Type := mkPout {
  po_mode : pmode; po_n : v3; po_load : option v3; po_sens : list (nat * v3);
  po_dX : nat -> v3; po_cols : nat }.
(** constructor, L26-38: the condition on the norm always holds *)
Definition pout_new (o : pmode) (n : v3) : outcome pout :=
  match o with
  | UnitVec => u <- div3 n (len3 n) ;; Ok (mkPout o u None [] (fun _ => (0, 0, 0)) 0)
  | L2Norm => Ok (mkPout o n None [] (fun _ => (0, 0, 0)) 0)
  end.
Inductive ocall : Type := SetMode (o : pmode) (n : option v3) | SetLoad (v : v3) | SetSens (f : nat) (v : v3) | SetDeriv (m : nat -> v3) (cols : nat) | OClear.
(** clear L47-53, set_output_mode L57-71; set_load, set_load_sensitivity, set_load_derivative .h L85-126 *)
Definition ostep (w : pout) (c : ocall) : outcome pout :=
  match c with
  | SetMode L2Norm _ => Ok (mkPout L2Norm (po_n w) (po_load w) (po_sens w) (po_dX w) (po_cols w))
  | SetMode UnitVec None => Fault AssertFailed
  | SetMode UnitVec (Some n) => u <- div3 n (len3 n) ;; Ok (mkPout UnitVec u (po_load w) (po_sens w) (po_dX w) (po_cols w))
  | SetLoad v => Ok (mkPout (po_mode w) (po_n w) (Some v) (po_sens w) (po_dX w) (po_cols w))
  | SetSens f v => assert_ (negb (existsb (fun q => (fst q =? f)%nat) (po_sens w)))
      (Ok (mkPout (po_mode w) (po_n w) (po_load w) ((f, v) :: po_sens w) (po_dX w) (po_cols w)))
  | SetDeriv m k => Ok (mkPout (po_mode w) (po_n w) (po_load w) (po_sens w) m k)
  | OClear => Ok (mkPout (po_mode w) (po_n w) (match po_load w with Some _ => Some (0, 0, 0) | None => None end) [] (fun _ => (0, 0, 0)) (po_cols w))
  end.
Fixpoint osteps (w : pout) (l : list ocall) : outcome pout :=
  match l with [] => Ok w | c :: t => g <- ostep w c ;; osteps g t end.
(** value, L75-98: the norm of an empty vector is zero, its product with the direction a size mismatch *)
Definition ovalue (w : pout) : outcome R :=
  match po_mode w, po_load w with
  | L2Norm, None => Ok 0
  | L2Norm, Some v => Ok (len3 v)
  | UnitVec, None => Fault AssertFailed
  | UnitVec, Some v => Ok (dot3 v (po_n w))
  end.
(** sensitivity, L102-130 *)
Definition osensitivity (w : pout) (f : nat) : outcome R :=
  match find (fun q => (fst q =? f)%nat) (po_sens w) with
  | None => Fault AssertFailed
  | Some (_, dv) => match po_mode w, po_load w with
    | L2Norm, None => Fault AssertFailed
    | L2Norm, Some v => if reqb (len3 v) 0 then Fault DivByZero else Ok (dot3 v dv / len3 v)
    | UnitVec, _ => Ok (dot3 dv (po_n w))
    end
  end.
(** derivative, L134-158: entry j *)
Definition oderivative (w : pout) (j : nat) : outcome R :=
  match po_mode w, po_load w with
  | L2Norm, None => Fault AssertFailed
  | L2Norm, Some v => if reqb (len3 v) 0 then Fault DivByZero else Ok (dot3 v (po_dX w j) / len3 v)
  | UnitVec, _ => Ok (dot3 (po_n w) (po_dX w j))
  end.
