(** C09, C10, C11, C60: the discipline's registries. *)
From Coq Require Import List Arith Lia Bool.
From Verif Require Import Base Disc_Model Disc_Spec Disc_Proofs.
Import ListNotations.

(** C09: after any history (in either build) that ran through, the loads reported for every side id and
    every subdomain id are those obtained by replaying the history for that id alone. *)
Theorem C09_loads_refine : forall debug ops d, drun debug disc0 ops = Ok d -> forall id,
  loads_of (side d) id = side_now ops id /\ loads_of (vol d) id = vol_now ops id.
Proof.
  intros debug ops d H id. destruct (run_refines debug ops disc0 d H id) as (A & B & _). split; [exact A|exact B].
Qed.
Print Assumptions C09_loads_refine.

(** C09: the release build runs every history; the debug build stops exactly at misuse. *)
Theorem C09_release_total : forall ops, exists d, drun false disc0 ops = Ok d.
Proof. intros; apply release_total. Qed.
Print Assumptions C09_release_total.
Theorem C09_debug_misuse : forall h d id l, drun true disc0 h = Ok d ->
  (dstep true d (AddSide id l) = Fault AssertFailed <-> In l (side_now h id)) /\
  (dstep true d (AddVol id l) = Fault AssertFailed <-> In l (vol_now h id)) /\
  (dstep true d (ClearVol id l) = Fault AssertFailed <-> ~ In l (vol_now h id)).
Proof.
  intros h d id l H. split; [exact (debug_misuse_side h d id l H)|exact (debug_misuse_vol h d id l H)].
Qed.
Print Assumptions C09_debug_misuse.

(** C09: removing a load that is not there changes nothing. *)
Theorem C09_remove_absent : forall debug ops d id l, drun debug disc0 ops = Ok d ->
  ~ In l (side_now ops id) ->
  exists d', dstep debug d (RemoveSide id l) = Ok d' /\
    forall id', loads_of (side d') id' = loads_of (side d) id' /\ loads_of (vol d') id' = loads_of (vol d) id'.
Proof.
  intros debug ops d id l H Hn. eexists; split; [reflexivity|]. intros id'; split; [|reflexivity].
  simpl. rewrite loads_erase. destruct (Nat.eqb_spec id id'); auto. subst.
  destruct (run_refines debug ops disc0 d H id') as (A & _). apply remove_absent. rewrite A. exact Hn.
Qed.
Print Assumptions C09_remove_absent.

(** C10 is false for point loads ... *)
Theorem C10_clear_loads_refuted : exists ops d d',
  drun true disc0 ops = Ok d /\ dstep true d ClearLoads = Ok d' /\ points d' <> [].
Proof. exists [AddPoint 7]. do 2 eexists. repeat split. discriminate. Qed.
Print Assumptions C10_clear_loads_refuted.
(** ... and true for side and volume loads.  Missing: point loads (they are all kept). *)
Theorem C10_clear_loads_partial : forall debug d d', dstep debug d ClearLoads = Ok d' ->
  points d' = points d /\ (forall id, loads_of (side d') id = [] /\ loads_of (vol d') id = []).
Proof. exact clear_keeps_points. Qed.
Print Assumptions C10_clear_loads_partial.

(** C11: the card returned is the one last registered for the subdomain; without one the call fails
    (assertion in debug; in release the end() iterator is dereferenced). *)
Theorem C11_property_card : forall debug ops d sid, drun debug disc0 ops = Ok d ->
  get_property_card debug d sid =
    match card_now ops sid with
    | Some c => Ok c
    | None => if debug then Fault AssertFailed else Fault OutOfBounds
    end.
Proof.
  intros debug ops d sid H. destruct (run_refines debug ops disc0 d H sid) as (_ & _ & C).
  unfold get_property_card, card_now. simpl in C. change (assoc [] sid) with (@None nat) in C. now rewrite C.
Qed.
Print Assumptions C11_property_card.

(** C60: whenever get_system_dirichlet_bc_dofs runs through, it returns exactly the constrained dofs:
    dofs of variables constrained on the element's subdomain, dofs on exterior sides with a registered
    boundary id, and dofs with an empty constraint row. *)
Theorem C60_dirichlet_dofs : forall bc sub elems rows acc, dirichlet_dofs bc sub elems rows = Ok acc ->
  forall d, In d acc <-> constrained bc sub elems rows d.
Proof. exact dirichlet_dofs_in. Qed.
Print Assumptions C60_dirichlet_dofs.
(** It runs through when the side dof numbers of variable 0 are valid for every variable ... *)
Theorem C60_dirichlet_dofs_total : forall bc sub elems rows,
  (forall e s v k, In e elems -> In s (sides e) -> In k (side_dofs0 s) -> k < length (dof_indices e v)) ->
  exists acc, dirichlet_dofs bc sub elems rows = Ok acc.
Proof. exact dirichlet_dofs_ok. Qed.
Print Assumptions C60_dirichlet_dofs_total.
(** ... and reads out of bounds when a constrained variable has fewer dofs per element than variable 0
    (finding: the FE type of variable 0 is used for all variables). *)
Theorem C60_mixed_order_out_of_bounds : exists bc sub elems rows,
  dirichlet_dofs bc sub elems rows = Fault OutOfBounds.
Proof.
  exists (fun b => if b =? 1 then Some [1] else None), (fun _ => []),
   [mkElem 0 (fun v => match v with 0 => [0;1;2] | _ => [3;4] end) [mkSide false [1] [2]]], [].
  reflexivity.
Qed.
Print Assumptions C60_mixed_order_out_of_bounds.

Example C09_nonvacuous :
  drun true disc0 [AddSide 1 10; AddSide 1 11; AddVol 1 10; RemoveSide 1 10; RemoveSide 2 11; SetCard 3 5] =
    Ok (mkDisc [(1,11)] [(1,10)] [] [(3,5)] []) /\
  side_now [AddSide 1 10; AddSide 1 11; AddVol 1 10; RemoveSide 1 10; RemoveSide 2 11; SetCard 3 5] 1 = [11].
Proof. split; reflexivity. Qed.
Example C60_nonvacuous :
  dirichlet_dofs (fun b => if b =? 1 then Some [0; 1] else None) (fun s => if s =? 9 then [1] else [])
    [mkElem 9 (fun v => match v with 0 => [0;1] | _ => [2;3] end)
       [mkSide false [1; 4] [0]; mkSide true [1] [1]]] [(7,0);(8,2)] = Ok [7; 2; 0; 2; 3].
Proof. reflexivity. Qed.
