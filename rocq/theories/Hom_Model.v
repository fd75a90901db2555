(** Model of the homogenised densities: level_set/homogenized_density_function_base.{h,cpp},
    heaviside_elem_homogenization_function.cpp and intersected_elem_homogenization_function.cpp.

    An element of the analysis mesh is given by its id, number of nodes and quadrature points; the state of a
    function on one process is the two maps.  A map is a list with the latest entry first, so that operator[] is
    an entry in front.  The point locator is a function from points to element ids. *)
From Coq Require Import Reals List Arith Bool.
From Verif Require Import Base RBool Sens_Model Lse_Model.
Import ListNotations.
Open Scope R_scope.

Record helem := mkHe { he_id : nat; he_n : nat; he_qs : list lpt }.
Record hstate := mkH { h_frac : list (nat * R); h_sens : list (nat * list (nat * R)) }.
Definition h_start : hstate := mkH [] [].
Fixpoint find_in {A} (k : nat) (l : list (nat * A)) : option A :=
  match l with [] => None | (j, a) :: l => if (k =? j)%nat then Some a else find_in k l end.
Definition is_nil {A} (l : list A) : bool := match l with [] => true | _ => false end.

Section Process.
Variable dbg : bool.
Variable width : R.
(** active local elements of the analysis mesh *)
Variable local : list helem.
(** FilterBase::if_elem_in_domain_of_influence for the node of parameter f *)
Variable influence : nat -> helem -> bool.
(** f.is_topology_parameter() (and then a LevelSetParameter) *)
Variable topology : nat -> bool.

(** the loop of HeavisideElemHomogenizedDensityFunction::initialize_element_volume_fractions, cpp:48-101 *)
Fixpoint fractions (phi : helem -> vec) (es : list helem) (m : list (nat * R)) : outcome (list (nat * R)) :=
  match es with
  | [] => Ok m
  | e :: es => v <- homogenized_volume_fraction (he_n e) (he_qs e) (phi e) width ;; fractions phi es ((he_id e, v) :: m)
  end.
Definition initialize (phi : helem -> vec) (s : hstate) : outcome hstate :=
  if dbg && negb (is_nil (h_frac s)) then Fault AssertFailed else
  m <- fractions phi local (h_frac s) ;; Ok (mkH m (h_sens s)).
(** initialize_element_volume_fraction_sensitivity, cpp:105-173; phi: nodal values, dphi: their derivatives.
    The entry of f is created here also without local elements, where it makes no difference to later lookups. *)
Fixpoint fraction_sensitivities (f : nat) (phi dphi : helem -> vec) (es : list helem) (m : list (nat * R)) : outcome (list (nat * R)) :=
  match es with
  | [] => Ok m
  | e :: es =>
      v <- (if influence f e then homogenized_volume_fraction_sensitivity (he_n e) (he_qs e) (phi e) (dphi e) width else Ok 0) ;;
      fraction_sensitivities f phi dphi es ((he_id e, v) :: m)
  end.
Definition initialize_sensitivity (f : nat) (phi dphi : helem -> vec) (s : hstate) : outcome hstate :=
  let old := match find_in f (h_sens s) with Some m => m | None => [] end in
  if dbg && negb (is_nil old) then Fault AssertFailed else
  if negb (topology f) then Fault (if dbg then AssertFailed else LibError) else
  m <- fraction_sensitivities f phi dphi local old ;; Ok (mkH (h_frac s) ((f, m) :: h_sens s)).
(** clear_element_volume_fractions, clear_element_volume_fraction_sensitivity, h:72-76 *)
Definition clear_fractions (s : hstate) : hstate := mkH [] (h_sens s).
Definition clear_sensitivity (s : hstate) : hstate := mkH (h_frac s) [].

Inductive hop := HInit (phi : helem -> vec) | HSens (f : nat) (phi dphi : helem -> vec) | HClear | HClearSens.
Definition hstep (s : hstate) (o : hop) : outcome hstate :=
  match o with
  | HInit phi => initialize phi s
  | HSens f phi dphi => initialize_sensitivity f phi dphi s
  | HClear => Ok (clear_fractions s)
  | HClearSens => Ok (clear_sensitivity s)
  end.
Fixpoint hrun (s : hstate) (ops : list hop) : outcome hstate :=
  match ops with [] => Ok s | o :: ops => s' <- hstep s o ;; hrun s' ops end.

(** the failure of an assertion; without assertions the end of the map is dereferenced *)
Definition missing : fault := if dbg then AssertFailed else OutOfBounds.
Section Points.
Variable point : Type.
Variable locate : point -> option nat.
(** operator(), base.cpp:59-78 *)
Definition density (s : hstate) (p : point) : outcome R :=
  if dbg && is_nil (h_frac s) then Fault AssertFailed else
  match locate p with
  | None => Fault missing
  | Some e => match find_in e (h_frac s) with Some v => Ok v | None => Fault missing end
  end.
(** get_elem_volume_fraction_sensitivity, base.cpp:113-130, and derivative, base.cpp:82-97 *)
Definition elem_sensitivity (s : hstate) (f e : nat) : outcome R :=
  match find_in f (h_sens s) with
  | None => Fault missing
  | Some m => match find_in e m with Some v => Ok v | None => Fault missing end
  end.
Definition density_derivative (s : hstate) (f : nat) (p : point) : outcome R :=
  if dbg && is_nil (h_sens s) then Fault AssertFailed else
  match locate p with
  | None => Fault missing
  | Some e => elem_sensitivity s f e
  end.
End Points.

(** ** IntersectedElemHomogenizedDensityFunction *)
(** get_positive_phi_volume_fraction of the intersection of an element *)
Variable cut_fraction : helem -> R.
(** the elements an iterator pair runs over, both given as positions in the list of local elements *)
Definition between (b e : nat) : list helem := firstn (e - b) (skipn b local).
(** initialize_element_volume_fractions, cpp:44-65: e_end is local_elements_begin(), too *)
Definition cut_initialize (s : hstate) : outcome hstate :=
  if dbg && negb (is_nil (h_frac s)) then Fault AssertFailed else
  Ok (mkH (fold_left (fun m e => (he_id e, cut_fraction e) :: m) (between 0 0) (h_frac s)) (h_sens s)).
(** initialize_element_volume_fraction_sensitivity, cpp:68-117; the loop over sub-elements is commented out *)
Definition cut_initialize_sensitivity (f : nat) (s : hstate) : outcome hstate :=
  if dbg && negb (is_nil (h_sens s)) then Fault AssertFailed else
  let es := between 0 0 in
  if is_nil es then Ok s else
  let old := match find_in f (h_sens s) with Some m => m | None => [] end in
  Ok (mkH (h_frac s) ((f, fold_left (fun m e => (he_id e, cut_fraction e) :: m) es old) :: h_sens s)).
Inductive cutop := KInit | KSens (f : nat) | KClear | KClearSens.
Definition cutstep (s : hstate) (o : cutop) : outcome hstate :=
  match o with
  | KInit => cut_initialize s
  | KSens f => cut_initialize_sensitivity f s
  | KClear => Ok (clear_fractions s)
  | KClearSens => Ok (clear_sensitivity s)
  end.
Fixpoint cutrun (s : hstate) (ops : list cutop) : outcome hstate :=
  match ops with [] => Ok s | o :: ops => s' <- cutstep s o ;; cutrun s' ops end.
End Process.
