(** Proofs about the section cards: integrals and resultants. *)
From Coquelicot Require Import Coquelicot.
From Coq Require Import List Arith Bool Reals Lra Lia.
From Verif Require Import Base BaseLemmas RBool Mat_Model Mat_Spec Mat_Proofs Coor_Model Coor_Proofs Sect_Model Sect_Spec.
Import ListNotations.
Open Scope R_scope.

Lemma is_RInt_quad (a b c l u : R) : is_RInt (fun z => a + b * z + c * z ^ 2) l u (a * (u - l) + b * (u ^ 2 - l ^ 2) / 2 + c * (u ^ 3 - l ^ 3) / 3).
Proof.
  replace (a * (u - l) + b * (u ^ 2 - l ^ 2) / 2 + c * (u ^ 3 - l ^ 3) / 3) with
    (minus ((fun z : R => a * z + b * z ^ 2 / 2 + c * z ^ 3 / 3) u) ((fun z : R => a * z + b * z ^ 2 / 2 + c * z ^ 3 / 3) l)).
  - apply (is_RInt_derive (fun z : R => a * z + b * z ^ 2 / 2 + c * z ^ 3 / 3)).
    + intros x _. auto_derive; [auto|]. field.
    + intros x _. apply (ex_derive_continuous (fun z => a + b * z + c * z ^ 2)). auto_derive. auto.
  - unfold minus, plus, opp; cbn. field.
Qed.
Lemma RInt_quad (a b c l u : R) : RInt (fun z => a + b * z + c * z ^ 2) l u = a * (u - l) + b * (u ^ 2 - l ^ 2) / 2 + c * (u ^ 3 - l ^ 3) / 3.
Proof. apply is_RInt_unique, is_RInt_quad. Qed.
Lemma RInt_as_quad f (a b c l u : R) : (forall z, f z = a + b * z + c * z ^ 2) ->
  RInt f l u = a * (u - l) + b * (u ^ 2 - l ^ 2) / 2 + c * (u ^ 3 - l ^ 3) / 3.
Proof. intros H. rewrite <- (RInt_quad a b c). apply RInt_ext. intros; apply H. Qed.
(** Integral of a polynomial of degree two over the section, and through a plate. *)
Lemma over_poly s f c00 c10 c01 c20 c11 c02 : (forall y z, f y z = c00 + c10 * y + c01 * z + c20 * y ^ 2 + c11 * (y * z) + c02 * z ^ 2) ->
  over s f = s hy_ * s hz_ * (c00 + c10 * s oy_ + c01 * s oz_ + c20 * (s oy_ ^ 2 + s hy_ ^ 2 / 12) + c11 * (s oy_ * s oz_) + c02 * (s oz_ ^ 2 + s hz_ ^ 2 / 12)).
Proof.
  intros H. unfold over.
  rewrite (RInt_as_quad (fun y => RInt (fun z => f y z) (s oz_ - s hz_ / 2) (s oz_ + s hz_ / 2))
    (c00 * s hz_ + c01 * s hz_ * s oz_ + c02 * (s hz_ * (s oz_ ^ 2 + s hz_ ^ 2 / 12))) (c10 * s hz_ + c11 * (s hz_ * s oz_)) (c20 * s hz_)).
  - field.
  - intros y. rewrite (RInt_as_quad (fun z => f y z) (c00 + c10 * y + c20 * y ^ 2) (c01 + c11 * y) c02); [field|].
    intros z. rewrite H. ring.
Qed.
Lemma through_poly s f a b c : (forall z, f z = a + b * z + c * z ^ 2) ->
  through s f = s h_ * a + s h_ * s off_ * b + (s h_ ^ 3 / 12 + s h_ * s off_ ^ 2) * c.
Proof. intros H. unfold through. rewrite (RInt_as_quad f a b c) by exact H. field. Qed.

(** ** Bars *)
Lemma area_over s : area s = over s (fun _ _ => 1).
Proof. rewrite (over_poly s _ 1 0 0 0 0 0) by (intros; ring). unfold area. ring. Qed.
Lemma ymom_over s : ymom s = over s (fun _ z => z).
Proof. rewrite (over_poly s _ 0 0 1 0 0 0) by (intros; ring). unfold ymom. ring. Qed.
Lemma zmom_over s : zmom s = over s (fun y _ => y).
Proof. rewrite (over_poly s _ 0 1 0 0 0 0) by (intros; ring). unfold zmom. ring. Qed.
Lemma polar_over s : polar_in s = over s (fun y z => y ^ 2 + z ^ 2).
Proof. rewrite (over_poly s _ 0 0 0 1 0 1) by (intros; ring). unfold polar_in. field. Qed.
Lemma inert_over s : exists I, inert s = Ok I /\ square I 2 /\ ent I 0%nat 0%nat = over s (fun y _ => y ^ 2) /\
  ent I 0%nat 1%nat = over s (fun y z => y * z) /\ ent I 1%nat 0%nat = over s (fun y z => y * z) /\ ent I 1%nat 1%nat = over s (fun _ z => z ^ 2).
Proof.
  unfold inert. mkred. eexists. split; [reflexivity|]. split; [split; reflexivity|].
  rewrite (over_poly s (fun y _ => y ^ 2) 0 0 0 1 0 0) by (intros; ring). rewrite (over_poly s (fun y z => y * z) 0 0 0 0 1 0) by (intros; ring).
  rewrite (over_poly s (fun _ z => z ^ 2) 0 0 0 0 0 1) by (intros; ring).
  cbn. repeat split; field.
Qed.
Lemma formula_roark a b : a <> 0 -> tors_formula a b = roark a b.
Proof. intros H. unfold tors_formula, roark. field. exact H. Qed.
Lemma tors_eq s : positive_bar s -> tors s = Ok (roark (Rmax (s hy_) (s hz_)) (Rmin (s hy_) (s hz_))).
Proof.
  intros (Py & Pz). unfold tors. destruct (rltb (s hz_) (s hy_)) eqn:E; [apply rltb_true in E|apply rltb_false in E]; cbv zeta.
  - rewrite Rmax_left, Rmin_right by lra. rewrite guard_ok by (constructor; [lra|constructor]). rewrite formula_roark by lra. reflexivity.
  - rewrite Rmax_right, Rmin_left by lra. rewrite guard_ok by (constructor; [lra|constructor]). rewrite formula_roark by lra. reflexivity.
Qed.
Lemma roark_pos a b : 0 < b <= a -> 0 < roark a b.
Proof.
  intros (Hb & Hab). unfold roark. set (x := b / a).
  assert (X : 0 < x <= 1). { unfold x. split; [apply Rdiv_lt_0_compat; lra|]. apply Rmult_le_reg_r with a; [lra|]. field_simplify; lra. }
  replace (b ^ 4 / (12 * a ^ 4)) with (x ^ 4 / 12) by (unfold x; field; lra).
  apply Rmult_lt_0_compat; [apply Rmult_lt_0_compat; [lra|apply pow_lt; lra]|].
  assert (0 <= x ^ 4 <= 1) by (split; [apply pow_le; lra|]; replace 1 with (1 ^ 4) by ring; apply pow_incr; lra).
  nra.
Qed.
Lemma roark_le a b : 0 < b <= a -> roark a b <= a * b * (a ^ 2 + b ^ 2) / 12.
Proof.
  intros (Hb & Hab). unfold roark. set (x := b / a).
  assert (X : 0 < x <= 1). { unfold x. split; [apply Rdiv_lt_0_compat; lra|]. apply Rmult_le_reg_r with a; [lra|]. field_simplify; lra. }
  replace (b ^ 4 / (12 * a ^ 4)) with (x ^ 4 / 12) by (unfold x; field; lra).
  assert (E : b = x * a) by (unfold x; field; lra). rewrite E.
  assert (Q : 3 * x ^ 2 - 252 / 100 * x ^ 3 + 21 / 100 * x ^ 7 <= 1).
  { assert (x ^ 7 <= x ^ 2). { replace (x ^ 7) with (x ^ 2 * x ^ 5) by ring. assert (x ^ 5 <= 1) by (replace 1 with (1 ^ 5) by ring; apply pow_incr; lra).
      assert (0 <= x ^ 2) by (apply pow_le; lra). nra. }
    assert (0 <= (x - 85 / 100) ^ 2 * (x + 425 / 1000)) by (apply Rmult_le_pos; [apply pow2_ge_0|lra]).
    assert (0 <= x ^ 2) by (apply pow_le; lra). lra. }
  assert (P : 0 < a ^ 4 * x) by (apply Rmult_lt_0_compat; [apply pow_lt|]; lra).
  assert (D : x * a * (x * a * (x * a)) = (x * a) ^ 3) by ring.
  apply Rminus_le. replace (a * (x * a) ^ 3 * (1 / 3 - 21 / 100 * x * (1 - x ^ 4 / 12)) - a * (x * a) * (a ^ 2 + (x * a) ^ 2) / 12)
    with (a ^ 4 * x * (3 * x ^ 2 - 252 / 100 * x ^ 3 + 21 / 100 * x ^ 7 - 1) / 12) by field.
  nra.
Qed.

Lemma row_eq r c R0 C0 f : Nat.ltb r R0 = true -> row_scl r c (mkMat R0 C0 f) = Ok (mkMat R0 C0 (fun i j => if Nat.eqb i r then f i j * c else f i j)).
Proof. intros H. unfold row_scl. cbn [rows cols ent]. rewrite H. reflexivity. Qed.
Lemma get_eq {A} R0 C0 (f : nat -> nat -> A) i j : Nat.ltb i R0 = true -> Nat.ltb j C0 = true -> mget (mkMat R0 C0 f) i j = Ok (f i j).
Proof. intros H K. unfold mget. cbn [rows cols ent]. rewrite H, K. reflexivity. Qed.
Lemma set_eq {A} R0 C0 (f : nat -> nat -> A) i j x : Nat.ltb i R0 = true -> Nat.ltb j C0 = true -> mset (mkMat R0 C0 f) i j x = Ok (mkMat R0 C0 (upd2 f i j x)).
Proof. intros H K. unfold mset. cbn [rows cols ent]. rewrite H, K. reflexivity. Qed.
Lemma mul_eq r n c f g : mul (mkMat r n f) (mkMat n c g) = Ok (mkMat r c (fun i j => sum n (fun k => f i k * g k j))).
Proof. unfold mul. cbn [rows cols ent]. rewrite Nat.eqb_refl. reflexivity. Qed.
(** Evaluate the matrix operations of a model function applied to matrices in constructor form. *)
Ltac mred :=
  unfold mscl; cbn [bind rows cols ent];
  repeat (first [rewrite mk_eq by reflexivity | rewrite madd_eq | rewrite mul_eq
                | rewrite row_eq by reflexivity | rewrite get_eq by reflexivity | rewrite set_eq by reflexivity]; unfold mscl; cbn [bind rows cols ent]).
Ltac ents := cbn [upds upd2 W Nat.eqb andb sum ent].

Lemma bar_stiff C s : square C 2 -> positive_bar s -> exists A B D, ext1 C s = Ok A /\ extbend1 C s = Ok B /\ bend1 C s = Ok D /\
  square A 2 /\ square B 2 /\ square D 2 /\
  (forall j, ent A 0%nat j = ent C 0%nat j * area s) /\
  (forall j, ent A 1%nat j = ent C 1%nat j * roark (Rmax (s hy_) (s hz_)) (Rmin (s hy_) (s hz_))) /\
  ent B 0%nat 0%nat = ent C 0%nat 0%nat * zmom s /\ ent B 0%nat 1%nat = ent C 0%nat 0%nat * ymom s /\
  (forall j, (j < 2)%nat -> ent B 1%nat j = 0) /\
  (forall I, inert s = Ok I -> forall i j, ent D i j = ent I i j * ent C 0%nat 0%nat).
Proof.
  intros (Cr & Cc) P. rewrite (eta C 2 2 Cr Cc). unfold ext1. rewrite (tors_eq s P). cbn [bind].
  unfold extbend1, couple, bend1, inert. mred. do 3 eexists. do 3 (split; [reflexivity|]).
  do 3 (split; [split; reflexivity|]). cbn [ent]. repeat split.
  - intros j Hj. destruct j as [|[|j]]; [| |lia]; ents; ring.
  - intros I E i j. injection E as <-. reflexivity.
Qed.
