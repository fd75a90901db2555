(** C06, C07, C08, C12. *)
From Coq Require Import String List Arith Lia Reals Lra Bool Relations.
From Verif Require Import Base Func_Model Func_Spec Func_Proofs.
Import ListNotations.
Open Scope nat_scope.

(** C06: on every acyclic dependency graph the recursion terminates (any bound above the rank suffices)
    and answers exactly "can be reached through registered dependencies". *)
Theorem C06_depends_on_reachability : forall g rank, ranked g rank ->
  forall fuel n f, rank n < fuel ->
  exists b, depends_on fuel g n f = Ok b /\ (b = true <-> truly_depends g n f).
Proof. exact depends_on_ok. Qed.
Print Assumptions C06_depends_on_reachability.

(** C06 boundary: with a cycle the recursion does not terminate, there is no guard. *)
Theorem C06_cycle_diverges : exists g n f, forall fuel, depends_on fuel g n f = Fault OutOfFuel.
Proof. exact cycle_diverges. Qed.
Print Assumptions C06_cycle_diverges.

(** a diamond 0 -> {1,2} -> 3, 3 a parameter *)
Definition C06_graph : graph :=
  fun n => match n with 0 => KField [1; 2] | 1 => KField [3] | 2 => KField [3; 1] | _ => KParameter end.
Example C06_nonvacuous :
  ranked C06_graph (fun n => match n with 0 => 3 | 1 => 1 | 2 => 2 | _ => 0 end) /\
  depends_on 4 C06_graph 0 3 = Ok true /\ depends_on 4 C06_graph 0 4 = Ok false /\
  depends_on 4 C06_graph 0 0 = Ok false.
Proof.
  repeat split. intros a b (d & E & H). destruct a as [|[|[|a]]]; simpl in E; inversion E; subst; simpl in H;
  intuition subst; lia.
Qed.

(** C07: for every store (hence after every history), the derivative reported w.r.t. f is the derivative
    of the value under a change of f's value; the point and time arguments play no role. *)
Theorem C07_constant_field_derivative : forall (st : store) p f,
  derivable_pt_lim (fun x => cff_value (param_assign st f x) p) (st f) (cff_derivative p f).
Proof. exact cff_derivative_ok. Qed.
Print Assumptions C07_constant_field_derivative.

(** C07: the value is the one last assigned to the parameter, whatever else was assigned meanwhile. *)
Theorem C07_constant_field_value : forall l (st : store) p,
  cff_value (fold_left (fun s a => param_assign s (fst a) (snd a)) l st) p = last_assign l p (st p).
Proof. exact cff_history. Qed.
Print Assumptions C07_constant_field_value.

Example C07_nonvacuous : last_assign [(0, 1%R); (1, 2%R); (0, 3%R); (1, 4%R)] 0 0%R = 3%R.
Proof. reflexivity. Qed.

(** C08, what holds: a card answers true exactly when one of the functions it consults depends on f.
    Missing from the full property: (i) a property that *is* f, f not a Parameter; (ii) the properties
    added to a multilayer card itself (see the two refutations). *)
Theorem C08_card_depends_partial : forall g rank fuel, ranked g rank -> forall k f,
  (forall n, card_fn_seen k n -> rank n < fuel) ->
  exists b, card_depends_on fuel g k f = Ok b /\
    (b = true <-> exists n, card_fn_seen k n /\ truly_depends g n f).
Proof. exact card_depends_ok. Qed.
Print Assumptions C08_card_depends_partial.

Theorem C08_own_field_function_refuted : exists g k f, (exists rank, ranked g rank) /\ card_fn k f /\
  forall fuel, card_depends_on (S fuel) g k f = Ok false.
Proof. exact own_field_refuted. Qed.
Print Assumptions C08_own_field_function_refuted.

Theorem C08_multilayer_own_property_refuted : exists g k n f,
  (exists rank, ranked g rank) /\ card_fn k n /\ truly_depends g n f /\
  forall fuel, card_depends_on fuel g k f = Ok false.
Proof. exact multilayer_own_refuted. Qed.
Print Assumptions C08_multilayer_own_property_refuted.

(** C08, the registry part: functions with distinct names can all be added, get returns the function
    added under the name, and an unknown name is an error. *)
Theorem C08_add_get : forall l, NoDup (map fst l) ->
  exists c, add_all [] l = Ok c /\
    (forall nm f, In (nm, f) l -> get_prop c nm = Ok f /\ contains c nm = true) /\
    (forall nm, ~ In nm (map fst l) -> get_prop c nm = Fault LibError /\ contains c nm = false).
Proof. exact card_add_get. Qed.
Print Assumptions C08_add_get.

Example C08_nonvacuous :
  let k := CSolid (CBase [("E"%string, 1)]) [("h"%string, 2)] in
  card_fn_seen k 1 /\ truly_depends C06_graph 1 3 /\ card_depends_on 4 C06_graph k 3 = Ok true /\
  card_depends_on 4 C06_graph k 4 = Ok false.
Proof.
  simpl. repeat split.
  - apply cs_solid_m. econstructor; left; reflexivity.
  - left. apply t_step. exists [3]; split; simpl; auto.
Qed.

(** C12 is false: two objects share one heap cell after a copy. *)
Theorem C12_parameter_copy_refuted : exists ops,
  contract 0 [] ops /\ prun pempty ops = Fault DoubleFree.
Proof. exists [PNew 1%R; PCopy 0; PDestroy 0; PDestroy 1]. split; [simpl; intuition lia|exact double_free]. Qed.
Print Assumptions C12_parameter_copy_refuted.

Theorem C12_parameter_copy_dangling_refuted : exists ops,
  contract 0 [] ops /\ prun pempty ops = Fault UseAfterFree.
Proof. exists [PNew 1%R; PCopy 0; PDestroy 1; PRead 0]. split; [simpl; intuition lia|exact use_after_free]. Qed.
Print Assumptions C12_parameter_copy_dangling_refuted.

(** C12, what holds: as long as no Parameter is copied, every history of construct / assign / read /
    destroy that respects lifetimes runs without a fault, and each live object reads back the value it
    was last given. *)
Theorem C12_no_copy_safe_partial : forall ops, no_copy ops -> contract 0 [] ops ->
  exists h, prun pempty ops = Ok h /\ forall o v, current 0 ops o None = Some v -> pvalue h o = Ok v.
Proof. exact nocopy_safe_top. Qed.
Print Assumptions C12_no_copy_safe_partial.

Example C12_nonvacuous :
  let ops := [PNew 1%R; PNew 2%R; PAssign 0 5%R; PDestroy 1; PRead 0] in
  no_copy ops /\ contract 0 [] ops /\ current 0 ops 0 None = Some 5%R /\ current 0 ops 1 None = None.
Proof. simpl; repeat split; try lia; try (repeat constructor); intuition lia. Qed.
