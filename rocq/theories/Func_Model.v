(** Model of the function / parameter / property-card dependency interface:
    /repo/src/base/function_base.h, parameter.h, constant_field_function.cpp, function_set_base.{h,cpp},
    and the depends_on overrides of /repo/src/property_cards. *)
From Coq Require Import String List Arith Reals Bool.
From Verif Require Import Base.
Import ListNotations.

(** Objects are identified by their address, a nat.  The virtual method depends_on has three
    implementations in the repository; [deps] is the member _functions (a std::set of pointers, here a
    list: order and multiplicity have no influence on the result). *)
Inductive fkind : Type :=
| KParameter                        (* parameter.h:86-91 *)
| KField (deps : list nat)          (* function_base.h:68-82 *)
| KAlways.                          (* level_set/homogenized_density_function_base.h:51 *)

Definition graph : Type := nat -> fkind.

(** the for loop with early return, function_base.h:73-77 *)
Fixpoint any_ {A} (test : A -> outcome bool) (l : list A) : outcome bool :=
  match l with
  | [] => Ok false
  | x :: t => b <- test x ;; if b then Ok true else any_ test t
  end.

(** FunctionBase::depends_on, function_base.h:68-82; Parameter::depends_on, parameter.h:86-91.
    The C++ recursion has no bound: [OutOfFuel] stands for a recursion deeper than the fuel. *)
Fixpoint depends_on (fuel : nat) (g : graph) (n f : nat) : outcome bool :=
  match fuel with
  | O => Fault OutOfFuel
  | S k =>
    match g n with
    | KParameter => Ok (f =? n)
    | KAlways => Ok true
    | KField deps =>
        if existsb (Nat.eqb f) deps then Ok true
        else any_ (fun c => depends_on k g c f) deps
    end
  end.

(** ** Parameter values and ConstantFieldFunction *)
(** store: address -> value of *_val *)
Definition store : Type := nat -> R.
(** Parameter::operator=, parameter.h:98-99 *)
Definition param_assign (st : store) (p : nat) (v : R) : store := upd st p v.
(** ConstantFieldFunction::operator(), constant_field_function.cpp:43-47, 62-67 *)
Definition cff_value (st : store) (p : nat) : R := st p.
(** ConstantFieldFunction::derivative, constant_field_function.cpp:52-57, 72-79; _p is a Parameter *)
Definition cff_derivative (p f : nat) : R := if f =? p then 1%R else 0%R.

(** ** Property cards *)
(** FunctionSetBase::_properties: name -> function *)
Definition props : Type := list (string * nat).
(** FunctionSetBase::contains, function_set_base.cpp:34-42 *)
Fixpoint lookup (c : props) (nm : string) : option nat :=
  match c with
  | [] => None
  | (k, f) :: t => if String.eqb k nm then Some f else lookup t nm
  end.
Definition contains (c : props) (nm : string) : bool :=
  match lookup c nm with Some _ => true | None => false end.
(** FunctionSetBase::add, function_set_base.cpp:46-56 (debug build: the assertion is active) *)
Definition add (c : props) (nm : string) (f : nat) : outcome props :=
  assert_ (negb (contains c nm)) (Ok ((nm, f) :: c)).
(** a client adding several functions in turn *)
Fixpoint add_all (c : props) (l : list (string * nat)) : outcome props :=
  match l with [] => Ok c | (nm, f) :: t => c' <- add c nm f ;; add_all c' t end.
(** FunctionSetBase::add in the release build: std::map::insert leaves an existing entry alone *)
Definition add_release (c : props) (nm : string) (f : nat) : props :=
  if contains c nm then c else (nm, f) :: c.
(** FunctionSetBase::get, function_set_base.h:62-92 (the dynamic_cast is not modelled) *)
Definition get_prop (c : props) (nm : string) : outcome nat :=
  match lookup c nm with Some f => Ok f | None => Fault LibError end.
(** FunctionSetBase::depends_on, function_set_base.cpp:60-74 *)
Definition set_depends_on (fuel : nat) (g : graph) (c : props) (f : nat) : outcome bool :=
  any_ (fun nf => depends_on fuel g (snd nf) f) c.

(** Property cards with their overrides of depends_on. *)
Inductive card : Type :=
| CBase (c : props)                         (* FunctionSetBase, MaterialPropertyCardBase *)
| CSolid (material : card) (c : props)      (* solid 1D/2D sections, isotropic/orthotropic 3D cards *)
| CMulti (layers : list card) (offsets : list nat) (c : props).  (* multilayer 1D/2D sections *)

(** solid_1d_section_element_property_card.cpp:1483-1486, solid_2d_section_element_property_card.cpp:372-376,
    isotropic_element_property_card_3D.cpp:186-189, orthotropic_element_property_card_3D.cpp:198-201,
    multilayer_1d_section_element_property_card.cpp:226-240, multilayer_2d_...cpp:234-247 *)
Fixpoint card_depends_on (fuel : nat) (g : graph) (k : card) (f : nat) : outcome bool :=
  match k with
  | CBase c => set_depends_on fuel g c f
  | CSolid m c =>
      b <- card_depends_on fuel g m f ;;
      if b then Ok true else set_depends_on fuel g c f
  | CMulti ls offs _ =>
      b <- (fix go l := match l with
                        | [] => Ok false
                        | x :: t => b <- card_depends_on fuel g x f ;; if b then Ok true else go t
                        end) ls ;;
      if b then Ok true else any_ (fun o => depends_on fuel g o f) offs
  end.

(** ** Parameter objects and their heap cell, parameter.h:40-56 *)
Inductive cell_state : Type := Live (v : R) | Freed.
(** objects: index -> (alive?, address of the value) *)
Record pheap : Type := mkH { cells : list cell_state; objs : list (bool * nat) }.
Inductive pop : Type :=
| PNew (v : R)              (* Parameter(nm, val), L40-44 *)
| PCopy (o : nat)           (* Parameter(const Parameter&), L47-50: copies the pointer *)
| PAssign (o : nat) (v : R) (* operator=, L98-99 *)
| PRead (o : nat)           (* operator(), L62-72 *)
| PDestroy (o : nat).       (* ~Parameter, L53-56: delete _val *)

Fixpoint lset {A} (l : list A) (i : nat) (x : A) : list A :=
  match l, i with
  | [], _ => []
  | _ :: t, O => x :: t
  | y :: t, S k => y :: lset t k x
  end.

(** Operations on an object that was destroyed, or never created, are [UseAfterFree] by the client
    (outside the contract); the interesting faults are those on a live object. *)
Definition pstep (h : pheap) (o : pop) : outcome pheap :=
  match o with
  | PNew v => Ok (mkH (cells h ++ [Live v]) (objs h ++ [(true, length (cells h))]))
  | PCopy o =>
      match nth_error (objs h) o with
      | Some (true, a) => Ok (mkH (cells h) (objs h ++ [(true, a)]))
      | _ => Fault UseAfterFree
      end
  | PAssign o v =>
      match nth_error (objs h) o with
      | Some (true, a) =>
          match nth_error (cells h) a with
          | Some (Live _) => Ok (mkH (lset (cells h) a (Live v)) (objs h))
          | _ => Fault UseAfterFree
          end
      | _ => Fault UseAfterFree
      end
  | PRead o =>
      match nth_error (objs h) o with
      | Some (true, a) =>
          match nth_error (cells h) a with
          | Some (Live _) => Ok h
          | _ => Fault UseAfterFree
          end
      | _ => Fault UseAfterFree
      end
  | PDestroy o =>
      match nth_error (objs h) o with
      | Some (true, a) =>
          match nth_error (cells h) a with
          | Some (Live _) => Ok (mkH (lset (cells h) a Freed) (lset (objs h) o (false, a)))
          | _ => Fault DoubleFree
          end
      | _ => Fault UseAfterFree
      end
  end.
Fixpoint prun (h : pheap) (ops : list pop) : outcome pheap :=
  match ops with [] => Ok h | o :: t => h' <- pstep h o ;; prun h' t end.

(** Parameter::operator() const: the value read through object [o] *)
Definition pvalue (h : pheap) (o : nat) : outcome R :=
  match nth_error (objs h) o with
  | Some (true, a) =>
      match nth_error (cells h) a with
      | Some (Live v) => Ok v
      | _ => Fault UseAfterFree
      end
  | _ => Fault UseAfterFree
  end.
Definition pempty : pheap := mkH [] [].
