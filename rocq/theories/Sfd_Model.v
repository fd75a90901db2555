(** Model of the stress fields written for plots: /repo/src/elasticity/stress_assembly.cpp,
    /repo/src/elasticity/level_set_stress_assembly.cpp, and the data kept by the stress output,
    /repo/src/elasticity/stress_output_base.cpp (area Stre models what is computed from them).
    What the element routines compute at the evaluation points, and the intersection (areas Isec, Refi), are data. *)
From Coq Require Import List Arith Bool Reals.
From Verif Require Import Base RBool Sens_Model Stre_Model.
Import ListNotations.
Open Scope R_scope.

(** one evaluation point: strain, stress, and their sensitivities for a parameter and a sensitivity of the local solution
    (StressStrainOutputBase::Data, stress_output_base.cpp L37-195) *)
Record spoint : Type := mkSp {
  sp_strain : nat -> R; sp_stress : nat -> R;
  sp_dstrain : nat -> vec -> nat -> R; sp_dstress : nat -> vec -> nat -> R }.
(** 6 strains, 6 stresses, von Mises stress: the variables of the stress system *)
Definition row13 : Type := nat -> R.
Definition set13 (F : nat -> row13) (id : nat) (v : row13) : nat -> row13 := fun i => if (i =? id)%nat then v else F i.
Definition pack (strain stress : nat -> R) (vm : R) : row13 :=
  fun i => if (i <? 6)%nat then strain i else if (i <? 12)%nat then stress (i - 6)%nat else if (i =? 12)%nat then vm else 0.

(** get_max_stress_strain_values, stress_assembly.cpp L46-96: [p] is the parameter with the sensitivity of the solution.  A single
    point is copied; several are compared, whatever [p] *)
Definition larger (m v : R) : R := if rltb (Rabs m) (Rabs v) then v else m.
Definition max_step (acc : outcome ((nat -> R) * (nat -> R) * R)) (q : spoint) : outcome ((nat -> R) * (nat -> R) * R) :=
  a <- acc ;; vm <- von_mises (sp_stress q) ;;
  let '(e, s, m) := a in
  Ok (fun i => larger (e i) (sp_strain q i), fun i => larger (s i) (sp_stress q i), if rltb m vm then vm else m).
Definition max_values (p : option (nat * vec)) (l : list spoint) : outcome ((nat -> R) * (nat -> R) * R) :=
  match l with
  | [q] => match p with
    | None => vm <- von_mises (sp_stress q) ;; Ok (sp_strain q, sp_stress q, vm)
    | Some (f, dx) => vm <- dmises (sp_stress q) (sp_dstress q f dx) ;; Ok (sp_dstrain q f dx, sp_dstress q f dx, vm)
    end
  | _ => fold_left max_step l (Ok (fun _ => 0, fun _ => 0, 0))
  end.

(** ** stress_assembly.cpp *)
Record selem : Type := mkSelem {
  se_id : nat; se_dofs : list nat;
  se_part : bool;                               (* ops.if_evaluate_for_element *)
  se_pts : params -> vec -> list spoint }.      (* what ops.evaluate adds for the element *)
(** One element, L150-215 and L283-356: the output is cleared first; [snd]: what the output then holds *)
Definition selem_step (th : params) (X : vec) (p : option (nat * vec)) (st : outcome ((nat -> row13) * list spoint)) (e : selem)
  : outcome ((nat -> row13) * list spoint) :=
  s <- st ;;
  if negb (se_part e) then Ok (fst s, [])
  else
    let pts := se_pts e th (gather (se_dofs e) X) in
    if (length pts =? 0)%nat then Fault AssertFailed          (* no entry in the map, L182 and L323 *)
    else v <- max_values (match p with None => None | Some (f, dX) => Some (f, gather (se_dofs e) dX) end) pts ;;
         let '(strain, stress, vm) := v in
         Ok (set13 (fst s) (se_id e) (pack strain stress vm), pts).
(** Every process loops over its elements with its own data; all set entries of the one field.  update_stress_strain_data
    (p = None), L101-219, and update_stress_strain_sensitivity_data, L225-361 *)
Fixpoint sfield_ranks (th : params) (X : vec) (p : option (nat * vec)) (rs : list (list selem * list spoint)) (F : nat -> row13)
  : outcome ((nat -> row13) * list (list spoint)) :=
  match rs with
  | [] => Ok (F, [])
  | (es, old) :: rest =>
      s <- fold_left (selem_step th X p) es (Ok (F, old)) ;;
      r <- sfield_ranks th X p rest (fst s) ;; Ok (fst r, snd s :: snd r)
  end.
Definition stress_field (th : params) (X : vec) (rs : list (list selem * list spoint)) := sfield_ranks th X None rs (fun _ _ => 0).
Definition stress_sensitivity_field (th : params) (X : vec) (f : nat) (dX : vec) (rs : list (list selem * list spoint)) :=
  sfield_ranks th X (Some (f, dX)) rs (fun _ _ => 0).

(** ** level_set_stress_assembly.cpp *)
Record scut : Type := mkScut {
  sc_id : nat; sc_dofs : list nat; sc_part : bool;
  sc_pos : bool;                                (* if_elem_has_positive_phi_region *)
  sc_hi : list (nat * (vec -> list spoint));    (* get_sub_elems_positive_phi with ids, and what evaluate adds *)
  sc_fac : option vec }.                        (* solution stored by the dof handler, if it factors the element *)
(** _stress_data: a map from the id of the sub-element; the first point is added under number 0, which must not be there yet,
    stress_output_base.cpp L613-653 *)
Definition add_sub (m : outcome (list (nat * list spoint))) (sub : nat * list spoint) : outcome (list (nat * list spoint)) :=
  l <- m ;;
  match snd sub with
  | [] => Ok l
  | _ => if existsb (fun q => (fst q =? fst sub)%nat) l then Fault AssertFailed else Ok (l ++ [sub])
  end.
(** L205-225: the values of the sub-elements are compared again *)
Definition merge_sub (acc : outcome row13) (sub : nat * list spoint) : outcome row13 :=
  a <- acc ;; v <- max_values None (snd sub) ;;
  let '(strain, stress, vm) := v in
  Ok (pack (fun i => larger (a i) (strain i)) (fun i => larger (a (i + 6)%nat) (stress i)) (Rmax vm (a 12%nat))).
(** One element, L141-243 *)
Definition scut_step (X : vec) (st : outcome (nat -> row13)) (e : scut) : outcome (nat -> row13) :=
  F <- st ;;
  if negb (sc_pos e) then Ok F
  else
    let sol := match sc_fac e with Some x => x | None => gather (sc_dofs e) X end in
    m <- fold_left add_sub (if sc_part e then map (fun s => (fst s, snd s sol)) (sc_hi e) else []) (Ok []) ;;
    assert_ (length m =? length (sc_hi e))%nat
    (v <- fold_left merge_sub m (Ok (fun _ => 0)) ;; Ok (set13 F (sc_id e) v)).
(** update_stress_strain_data, L93-248; [set]: init was called (the pointers are not checked) *)
Definition cut_stress_field (set : bool) (X : vec) (rs : list (list scut)) : outcome (nat -> row13) :=
  if negb set && negb (length (concat rs) =? 0)%nat then Fault NullDeref
  else fold_left (fun st es => fold_left (scut_step X) es st) rs (Ok (fun _ _ => 0)).

(** init, clear and the destructor, L38-79: [true] if an intersection is held; the number counts those lost *)
Inductive scall : Type := SInit | SClear | SDestroy.
Definition scall_step (st : outcome (bool * bool * nat)) (c : scall) : outcome (bool * bool * nat) :=
  s <- st ;; let '(alive, held, lost) := s in
  if negb alive then Fault UseAfterFree
  else match c with
  | SInit => if held then Fault AssertFailed else Ok (true, true, lost)
  | SClear => Ok (true, false, lost)
  | SDestroy => Ok (false, false, if held then S lost else lost)
  end.
Definition scalls (l : list scall) : outcome (bool * bool * nat) := fold_left scall_step l (Ok (true, false, O)).
