(** Areas of the sub-elements. *)
From Coq Require Import List Arith NArith ZArith Lia Bool Reals Lra Psatz.
From Verif Require Import Base BaseLemmas RBool Filt_Model Isec_Model Isec_Spec Isec_Proofs Isec_Proofs2.
Import ListNotations.
Open Scope nat_scope.

Definition pos_of (e : elem) (ms : list made) (x : vertex) : pt :=
  match x with
  | Old k => e_pt e k
  | Made j => match nth_error ms j with Some m => m_pt m | None => (0, 0, 0)%R end
  end.
Definition sub_area (e : elem) (ms : list made) (s : sub) : R := area (map (pos_of e ms) (s_vert s)).

Ltac cases IN := unfold occurring in IN; cbn [In] in IN;
  repeat (destruct IN as [IN|IN]; [injection IN as <- <- <-|]); [..|destruct IN].

Lemma area_sum e xi mxn m r n l : In (m, r, n) occurring -> subs_of m r n = Ok l ->
  lsum (map (sub_area e (made_of e xi mxn m r)) l) = area (map (e_pt e) (seq 0 4)).
Proof.
  intros IN H.
  set (x0 := xi 0) in *. set (x1 := xi 1) in *. set (x2 := xi 2) in *. set (x3 := xi 3) in *.
  destruct (e_pt e 0) as [[a0 b0] c0] eqn:E0. destruct (e_pt e 1) as [[a1 b1] c1] eqn:E1.
  destruct (e_pt e 2) as [[a2 b2] c2] eqn:E2. destruct (e_pt e 3) as [[a3 b3] c3] eqn:E3.
  cases IN;
   (cbv [subs_of Nat.eqb Nat.add] in H; injection H as <-;
    cbv [made_of make_on make_back sub_area pos_of map s_vert nth_error m_pt seq lsum fold_right o];
    repeat match goal with |- context [?a mod 4] => let b := eval vm_compute in (a mod 4) in change (a mod 4) with b end;
    cbn beta iota; change (xi 0) with x0; change (xi 1) with x1; change (xi 2) with x2; change (xi 3) with x3;
    clearbody x0 x1 x2 x3;
    rewrite ?E0, ?E1, ?E2, ?E3; cbv [padd pscale psub area shoe cross fst snd]; field).
Qed.

Lemma convex_interp f x : (0 <= x <= 1)%R -> (0 <= f 0)%R -> (0 <= f 1)%R ->
  (f x = (1 - x) * f 0 + x * f 1)%R -> (0 <= f x)%R.
Proof. intros H A B ->. apply Rplus_le_le_0_compat; apply Rmult_le_pos; lra. Qed.

(** The nodes made, with an independent parameter [h] for the hanging node. *)
Definition made_gen (e : elem) (xi : nat -> R) (h : R) (mx : N) (m : mode) (r : nat) : list made :=
  match m with
  | ADJACENT_EDGES => [make_on e (mx + 1)%N r (xi (r mod 4)); make_on e (mx + 2)%N (r + 1) (xi ((r + 1) mod 4));
                       make_back e (mx + 3)%N (r + 2) h]
  | _ => made_of e xi mx m r
  end.
Lemma made_gen_of e xi mx m r : made_gen e xi (xi (r mod 4)) mx m r = made_of e xi mx m r.
Proof. destruct m; reflexivity. Qed.

Ltac interp' x :=
  match goal with |- (0 <= ?g)%R =>
    let h := eval pattern x in g in
    match h with ?f x => apply (convex_interp f x); [assumption|cbv beta|cbv beta|cbv beta; field] end end.
Ltac interp x :=
  lazymatch goal with
  | |- context [x] => interp' x
  | |- _ => idtac
  end.

Lemma area_nonneg_gen e xi h mxn m r n l s : In (m, r, n) occurring -> subs_of m r n = Ok l ->
  convex_ccw (e_pt e) -> (forall k, 0 <= xi k <= 1)%R -> (0 <= h <= 1)%R -> In s l ->
  (0 <= sub_area e (made_gen e xi h mxn m r) s)%R.
Proof.
  intros IN H CV HX HH HS.
  pose proof (HX 0) as X0. pose proof (HX 1) as X1. pose proof (HX 2) as X2. pose proof (HX 3) as X3.
  set (x0 := xi 0) in *. set (x1 := xi 1) in *. set (x2 := xi 2) in *. set (x3 := xi 3) in *.
  unfold convex_ccw in CV.
  destruct (e_pt e 0) as [[a0 b0] c0] eqn:E0. destruct (e_pt e 1) as [[a1 b1] c1] eqn:E1.
  destruct (e_pt e 2) as [[a2 b2] c2] eqn:E2. destruct (e_pt e 3) as [[a3 b3] c3] eqn:E3.
  cbv [tri] in CV. destruct CV as (T0 & T1 & T2 & T3 & _).
  cases IN;
   (cbv [subs_of Nat.eqb Nat.add] in H; injection H as <-; cbn [In] in HS;
    repeat (destruct HS as [HS|HS]; [subst s|]); try destruct HS;
    cbv [made_gen made_of make_on make_back sub_area pos_of map s_vert nth_error m_pt seq o];
    repeat match goal with |- context [?a mod 4] => let b := eval vm_compute in (a mod 4) in change (a mod 4) with b end;
    cbn beta iota; change (xi 0) with x0; change (xi 1) with x1; change (xi 2) with x2; change (xi 3) with x3;
    clearbody x0 x1 x2 x3;
    rewrite ?E0, ?E1, ?E2, ?E3; cbv [padd pscale psub area shoe cross fst snd];
    clear E0 E1 E2 E3 HX; interp x0; interp x1; interp x2; interp x3; interp h; lra).
Qed.
Lemma area_nonneg e xi mxn m r n l s : In (m, r, n) occurring -> subs_of m r n = Ok l ->
  convex_ccw (e_pt e) -> (forall k, 0 <= xi k <= 1)%R -> In s l ->
  (0 <= sub_area e (made_of e xi mxn m r) s)%R.
Proof. intros. rewrite <- made_gen_of. eapply area_nonneg_gen; eauto. Qed.

Lemma parent_area_pos e : convex_ccw (e_pt e) -> (0 < area (map (e_pt e) (seq 0 4)))%R.
Proof.
  unfold convex_ccw. cbn [seq map].
  destruct (e_pt e 0) as [[a0 b0] c0], (e_pt e 1) as [[a1 b1] c1], (e_pt e 2) as [[a2 b2] c2], (e_pt e 3) as [[a3 b3] c3].
  cbv [tri area shoe cross fst snd]. intros (_ & _ & _ & _ & H). lra.
Qed.
