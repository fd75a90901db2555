(** What the pressure functions and the integrated pressure are expected to return. *)
From Coq Require Import List Arith Bool Reals.
From Verif Require Import Base Flui_Model Prs_Model.
Import ListNotations.
Open Scope R_scope.

(** the settings in force after a sequence of calls: the last of each kind *)
Definition last_cp (l : list pcall) : bool := fold_left (fun a c => match c with SetCp b => b | _ => a end) l false.
Definition last_ref (l : list pcall) : R := fold_left (fun a c => match c with UseReference r => r | _ => a end) l 0.
Definition last_sol (l : list pcall) : option solution := fold_left (fun a c => match c with PInit s _ => Some s | _ => a end) l None.
Definition last_dsol (l : list pcall) : option solution := fold_left (fun a c => match c with PInit _ ds => ds | _ => a end) l None.
(** the pressure of the conservative variables U: (gamma - 1) times the internal energy per volume *)
Definition gas_pressure (d : nat) (cp cv : R) (U : vec) : R :=
  (cp / cv - 1) * (U (d + 1)%nat - (U 1%nat ^ 2 + (if (1 <? d)%nat then U 2%nat ^ 2 else 0) + (if (2 <? d)%nat then U 3%nat ^ 2 else 0)) / (2 * U 0%nat)).
Definition free_pressure (fl : flight) : R := g_p (fl_gas fl).
(** a force, its size and its component along a direction *)
Definition size3 (v : v3) : R := let '(a, b, c) := v in sqrt (a ^ 2 + b ^ 2 + c ^ 2).
Definition along (n v : v3) : R := let '(a, b, c) := v in let '(p, q, r) := n in (a * p + b * q + c * r) / size3 n.
Definition comp3 (i : nat) (v : v3) : R := let '(a, b, c) := v in match i with 0%nat => a | 1%nat => b | _ => c end.
(** mode, direction, load and sensitivities in force after construction with [o], [n] and a sequence of calls *)
Definition last_mode (o : pmode) (l : list ocall) : pmode := fold_left (fun a c => match c with SetMode m _ => m | _ => a end) l o.
Definition last_dir (n : v3) (l : list ocall) : v3 := fold_left (fun a c => match c with SetMode UnitVec (Some m) => m | _ => a end) l n.
Definition last_load (l : list ocall) : option v3 :=
  fold_left (fun a c => match c with SetLoad v => Some v | OClear => match a with Some _ => Some (0, 0, 0) | None => None end | _ => a end) l None.
Definition last_sens (f : nat) (l : list ocall) : option v3 :=
  fold_left (fun a c => match c with SetSens g v => if (g =? f)%nat then Some v else a | OClear => None | _ => a end) l None.
Definition last_deriv (l : list ocall) : nat -> v3 :=
  fold_left (fun a c => match c with SetDeriv m _ => m | OClear => fun _ => (0, 0, 0) | _ => a end) l (fun _ => (0, 0, 0)).
Definition output_of (o : pmode) (n v : v3) : R := match o with L2Norm => size3 v | UnitVec => along n v end.
Definition moves (L : R -> v3) (t0 : R) (d : v3) : Prop := forall i, derivable_pt_lim (fun t => comp3 i (L t)) t0 (comp3 i d).
