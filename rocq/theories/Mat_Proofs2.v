(** Proofs about the material cards: each stiffness matrix is the inverse of the compliance. *)
From Coquelicot Require Import Coquelicot.
From Coq Require Import List Arith Bool Reals Lra Lia.
From Verif Require Import Base RBool Mat_Model Mat_Spec Mat_Proofs.
Import ListNotations.
Open Scope R_scope.

Ltac app6 H := pose proof (H 0%nat ltac:(lia)); pose proof (H 1%nat ltac:(lia)); pose proof (H 2%nat ltac:(lia));
  pose proof (H 3%nat ltac:(lia)); pose proof (H 4%nat ltac:(lia)); pose proof (H 5%nat ltac:(lia)); clear H.
Ltac app3 H := pose proof (H 0%nat ltac:(lia)); pose proof (H 1%nat ltac:(lia)); pose proof (H 2%nat ltac:(lia)); clear H.
Ltac app2 H := pose proof (H 0%nat ltac:(lia)); pose proof (H 1%nat ltac:(lia)); clear H.
Ltac comp := cbn [sum ent upd2 upds rows cols direct diag flat_map map seq app W Nat.ltb Nat.leb Nat.eqb andb
                  corner_scl unok mscl] in *.
Ltac fin := field; repeat split; assumption.

Section Iso.
Variable v : props.
Hypothesis adm : admissible_iso v.
Let E := v E_.
Let nu := v nu_.
Lemma iE : E <> 0. Proof. destruct adm. unfold E. lra. Qed.
Lemma i1 : 1 + nu <> 0. Proof. destruct adm as [? [? ?]]. unfold nu. lra. Qed.
Lemma i2 : 1 - 2 * nu <> 0. Proof. destruct adm as [? [? ?]]. unfold nu. lra. Qed.
Lemma i3 : 1 - nu - 2 * nu * nu <> 0. Proof. replace (1 - nu - 2 * nu * nu) with ((1 + nu) * (1 - 2 * nu)) by ring. apply Rmult_integral_contrapositive; split; [apply i1|apply i2]. Qed.
Lemma i4 : 1 - nu <> 0. Proof. destruct adm as [? [? ?]]. unfold nu. lra. Qed.
Lemma i5 : 1 - nu * nu <> 0. Proof. replace (1 - nu * nu) with ((1 + nu) * (1 - nu)) by ring. apply Rmult_integral_contrapositive; split; [apply i1|apply i4]. Qed.
Lemma i6 : (1 + nu) * (1 - 2 * nu) <> 0. Proof. apply Rmult_integral_contrapositive; split; [apply i1|apply i2]. Qed.
Lemma i7 : 2 * nu * nu + nu - 1 <> 0. Proof. replace (2 * nu * nu + nu - 1) with (- ((1 + nu) * (1 - 2 * nu))) by ring. apply Ropp_neq_0_compat, i6. Qed.

Lemma iso_K3_law : exists m, iso_K3 v = Ok m /\ rows m = 6%nat /\ cols m = 6%nat /\
  forall e s, applies m 6 e s <-> law_of KStiff3 (hooke_iso v) e s.
Proof.
  unfold iso_K3. fold E nu. rewrite guard_ok by (nz; [apply i3|apply i1]).
  mkred. eexists; split; [reflexivity|]; split; [reflexivity|]; split; [reflexivity|].
  assert (a := iE). assert (b := i1). assert (c := i3). assert (d := i2).
  intros e s. unfold law_of, hooke_iso. fold E nu. split.
  - intros H. unfold applies in H. app6 H. comp.
    repeat match goal with h : s _ = _ |- _ => rewrite h; clear h end. repeat split; fin.
  - intros (h0 & h1 & h2 & h3 & h4 & h5) i Hi.
    idx6 i; comp; rewrite ?h0, ?h1, ?h2, ?h3, ?h4, ?h5; fin.
Qed.
Lemma iso_K2s_law : exists m, iso_K2 true v = Ok m /\ rows m = 3%nat /\ cols m = 3%nat /\
  forall e s, applies m 3 e s <-> law_of (KStiff2 true) (hooke_iso v) e s.
Proof.
  unfold iso_K2. fold E nu. rewrite guard_ok by (nz; [apply i5|apply i1]).
  mkred. eexists; split; [reflexivity|]; split; [reflexivity|]; split; [reflexivity|].
  assert (a := iE). assert (b := i1). assert (c := i5). assert (d := i4).
  intros e s. unfold law_of, hooke_iso. fold E nu. split.
  - intros H. unfold applies in H. app3 H. comp.
    exists (- nu / E * (s 0%nat + s 1%nat)). cbn [plane].
    repeat match goal with h : s _ = _ |- _ => rewrite h; clear h end. repeat split; fin.
  - intros (x & h0 & h1 & h2 & h3 & h4 & h5) i Hi. cbn [plane] in *.
    idx3 i; comp; rewrite ?h0, ?h1, ?h3; fin.
Qed.
Lemma iso_K2e_law : exists m, iso_K2 false v = Ok m /\ rows m = 3%nat /\ cols m = 3%nat /\
  forall e s, applies m 3 e s <-> law_of (KStiff2 false) (hooke_iso v) e s.
Proof.
  unfold iso_K2. fold E nu. rewrite guard_ok by (nz; [apply i6|apply i1]).
  mkred. eexists; split; [reflexivity|]; split; [reflexivity|]; split; [reflexivity|].
  assert (a := iE). assert (b := i1). assert (c := i2). assert (d := i6).
  intros e s. unfold law_of, hooke_iso. fold E nu. split.
  - intros H. unfold applies in H. app3 H. comp.
    exists (nu * (s 0%nat + s 1%nat)). cbn [plane].
    repeat match goal with h : s _ = _ |- _ => rewrite h; clear h end. repeat split; fin.
  - intros (x & h0 & h1 & h2 & h3 & h4 & h5) i Hi. cbn [plane] in *.
    assert (X : x = nu * (s 0%nat + s 1%nat)).
    { assert (Z : 0 * E = (x - nu * (s 0%nat + s 1%nat)) / E * E) by (rewrite <- h2; ring).
      replace ((x - nu * (s 0%nat + s 1%nat)) / E * E) with (x - nu * (s 0%nat + s 1%nat)) in Z by fin. lra. }
    idx3 i; comp; rewrite ?h0, ?h1, ?h3, ?X; fin.
Qed.
Lemma iso_K1_law : exists m, iso_K1 v = Ok m /\ rows m = 2%nat /\ cols m = 2%nat /\
  forall e s, applies m 2 e s <-> law_of KStiff1 (hooke_iso v) e s.
Proof.
  unfold iso_K1. fold E nu. rewrite guard_ok by (nz; apply i1).
  mkred. eexists; split; [reflexivity|]; split; [reflexivity|]; split; [reflexivity|].
  assert (a := iE). assert (b := i1).
  intros e s. unfold law_of, hooke_iso. fold E nu. split.
  - intros H. unfold applies in H. app2 H. comp.
    exists (- nu / E * s 0%nat), (- nu / E * s 0%nat). cbn [bar].
    repeat match goal with h : s _ = _ |- _ => rewrite h; clear h end. repeat split; fin.
  - intros (x & y & h0 & h1 & h2 & h3 & h4 & h5) i Hi. cbn [bar] in *.
    idx2 i; comp; rewrite ?h0, ?h3; fin.
Qed.
Lemma iso_shear_law : exists m, iso_shear v = Ok m /\ rows m = 2%nat /\ cols m = 2%nat /\
  forall e s, applies m 2 e s <-> law_of KShear (hooke_iso v) e s.
Proof.
  unfold iso_shear. fold E nu. rewrite guard_ok by (nz; apply i1).
  mkred. eexists; split; [reflexivity|]; split; [reflexivity|]; split; [reflexivity|].
  assert (a := iE). assert (b := i1).
  intros e s. unfold law_of, hooke_iso. fold E nu. split.
  - intros H. unfold applies in H. app2 H. comp. cbn [shears].
    repeat match goal with h : s _ = _ |- _ => rewrite h; clear h end. repeat split; fin.
  - intros (h0 & h1 & h2 & h3 & h4 & h5) i Hi. cbn [shears] in *.
    idx2 i; comp; rewrite ?h4, ?h5; fin.
Qed.
End Iso.

Section Ort.
Variable v : props.
Hypothesis adm : admissible_ort v.
Let E1 := v E11_.
Let E2 := v E22_.
Let E3 := v E33_.
Let n12 := v nu12_.
Let n23 := v nu23_.
Let n31 := v nu31_.
Lemma o1 : E1 <> 0. Proof. destruct adm as (?&?&?&?). unfold E1. lra. Qed.
Lemma o2 : E2 <> 0. Proof. destruct adm as (?&?&?&?). unfold E2. lra. Qed.
Lemma o3 : E3 <> 0. Proof. destruct adm as (?&?&?&?). unfold E3. lra. Qed.
Lemma og1 : v G12_ <> 0. Proof. destruct adm as (?&?&?&?&?&?&?). lra. Qed.
Lemma og2 : v G13_ <> 0. Proof. destruct adm as (?&?&?&?&?&?&?). lra. Qed.
Lemma og3 : v G23_ <> 0. Proof. destruct adm as (?&?&?&?&?&?&?). lra. Qed.
Lemma oD : ort_D v = 1 - (n12 * n12 * (E2 / E1) + n23 * n23 * (E3 / E2) + n31 * n31 * (E1 / E3) + 2 * n12 * n23 * n31).
Proof. unfold ort_D, nu21, nu13, nu32. fold E1 E2 E3 n12 n23 n31. assert (a := o1). assert (b := o2). assert (c := o3). fin. Qed.
Lemma oDpos : 0 < ort_D v.
Proof. rewrite oD. destruct adm as (?&?&?&?&?&?&?&?). unfold n12, n23, n31, E1, E2, E3. lra. Qed.
Lemma oden : ort_den v = - (E1 * E2 * E3 * ort_D v).
Proof. rewrite oD. unfold ort_den. fold E1 E2 E3 n12 n23 n31. assert (a := o1). assert (b := o2). assert (c := o3). fin. Qed.
Lemma oden0 : ort_den v <> 0.
Proof. rewrite oden. apply Ropp_neq_0_compat. pose proof oDpos. pose proof o1. pose proof o2. pose proof o3. repeat (apply Rmult_integral_contrapositive; split); auto; lra. Qed.
Lemma om : E1 - n12 * n12 * E2 <> 0.
Proof. destruct adm as (?&?&?&?&?&?&?&?). unfold E1, E2, n12. lra. Qed.
Lemma om' : 1 - n12 * (n12 * E2 / E1) <> 0.
Proof. intros H. apply om. pose proof o1. replace (E1 - n12 * n12 * E2) with ((1 - n12 * (n12 * E2 / E1)) * E1) by fin. rewrite H. ring. Qed.
(** The divisor without fractions. *)
Let den := E1 * E2 * E3 - E2 * E2 * E3 * (n12 * n12) - E1 * (E3 * E3) * (n23 * n23) - E1 * E1 * E2 * (n31 * n31) - E1 * E2 * E3 * n12 * n23 * n31 * 2.
Lemma den0 : den <> 0.
Proof. intros H. apply oden0. unfold ort_den. fold E1 E2 E3 n12 n23 n31. unfold den in H. lra. Qed.
Lemma oDden : ort_D v = den / (E1 * E2 * E3).
Proof. rewrite oD. unfold den. pose proof o1. pose proof o2. pose proof o3. fin. Qed.

(** The ratios in terms of the off-diagonal compliances p = nu12/E11, q = nu31/E33, r = nu23/E22. *)
Let p := n12 / E1.
Let q := n31 / E3.
Let r := n23 / E2.
Lemma rp : n12 = p * E1. Proof. unfold p. pose proof o1. fin. Qed.
Lemma rq : n31 = q * E3. Proof. unfold q. pose proof o3. fin. Qed.
Lemma rr : n23 = r * E2. Proof. unfold r. pose proof o2. fin. Qed.
Lemma r21 : nu21 v = p * E2. Proof. unfold nu21, p. fold E1 E2 n12. pose proof o1. fin. Qed.
Lemma r13 : nu13 v = q * E1. Proof. unfold nu13, q. fold E1 E3 n31. pose proof o3. fin. Qed.
Lemma r32 : nu32 v = r * E3. Proof. unfold nu32, r. fold E3 E2 n23. pose proof o2. fin. Qed.
Lemma rD : ort_D v = 1 - p * p * (E1 * E2) - q * q * (E1 * E3) - r * r * (E2 * E3) - 2 * p * q * r * (E1 * E2 * E3).
Proof. unfold ort_D. rewrite r21, r13, r32. fold n12 n23 n31. rewrite rp, rq, rr. ring. Qed.
Lemma ort_K3_law : exists m, ort_K3 v = Ok m /\ rows m = 6%nat /\ cols m = 6%nat /\
  forall e s, applies m 6 e s <-> law_of KStiff3 (hooke_ort v) e s.
Proof.
  unfold ort_K3. rewrite guard_ok.
  2:{ nz; [apply o1|apply o3|apply o2|]. pose proof oDpos. lra. }
  mkred. eexists; split; [reflexivity|]; split; [reflexivity|]; split; [reflexivity|].
  assert (a := o1). assert (b := o2). assert (c := o3). assert (g1 := og1). assert (g2 := og2). assert (g3 := og3).
  assert (iD : ort_D v * / ort_D v = 1) by (apply Rinv_r; pose proof oDpos; lra).
  assert (HD := rD). set (D := ort_D v) in *. set (d := / D) in *. clearbody d. clearbody D.
  intros e s. unfold law_of, hooke_ort. fold E1 E2 E3 n12 n23 n31. fold p q r.
  assert (e1 : forall x, x = D * d * x) by (intros; rewrite iD; ring).
  unfold ort_block. rewrite r21, r13, r32. fold E1 E2 E3 n12 n23 n31. rewrite rp, rq, rr.
  clearbody p q r.
  split.
  - intros H. unfold applies in H. app6 H. comp. 
    repeat match goal with h : s _ = _ |- _ => rewrite h; clear h end.
    split; [|split; [|split; [|split; [|split]]]]; [| | |fin..].
    + rewrite (e1 (e 0%nat)) at 1. rewrite HD. field. auto.
    + rewrite (e1 (e 1%nat)) at 1. rewrite HD. field. auto.
    + rewrite (e1 (e 2%nat)) at 1. rewrite HD. field. auto.
  - intros (h0 & h1 & h2 & h3 & h4 & h5) i Hi.
    idx6 i; comp; rewrite ?h0, ?h1, ?h2, ?h3, ?h4, ?h5; try (field; repeat split; assumption).
    + rewrite (e1 (s 0%nat)) at 1. rewrite HD. field. repeat split; assumption.
    + rewrite (e1 (s 1%nat)) at 1. rewrite HD. field. repeat split; assumption.
    + rewrite (e1 (s 2%nat)) at 1. rewrite HD. field. repeat split; assumption.
Qed.
Lemma ort_K2s_law : exists m, ort_K2 true v = Ok m /\ rows m = 3%nat /\ cols m = 3%nat /\
  forall e s, applies m 3 e s <-> law_of (KStiff2 true) (hooke_ort v) e s.
Proof.
  unfold ort_K2. fold E1 E2 E3 n12 n23 n31. rewrite guard_ok by (nz; apply o1). cbv zeta. rewrite guard_ok by (nz; apply om').
  mkred. eexists; split; [reflexivity|]; split; [reflexivity|]; split; [reflexivity|].
  assert (a := o1). assert (b := o2). assert (c := o3). assert (g1 := og1). assert (d := om). assert (d' := om').
  assert (G13 := og2). assert (G23 := og3).
  assert (Q : 1 - n12 * (n12 * E2 / E1) = (E1 - n12 * n12 * E2) / E1) by fin.
  intros e s. unfold law_of, hooke_ort. fold E1 E2 E3 n12 n23 n31. split.
  - intros H. unfold applies in H. app3 H. comp. rewrite Q in *.
    exists (- (n31 / E3) * s 0%nat - n23 / E2 * s 1%nat). cbn [plane].
    repeat match goal with h : s _ = _ |- _ => rewrite h; clear h end. repeat split; try fin.
  - intros (x & h0 & h1 & h2 & h3 & h4 & h5) i Hi. cbn [plane] in *.
    idx3 i; comp; rewrite ?Q; rewrite ?h0, ?h1, ?h3; fin.
Qed.
Lemma ort_K2e_law : exists m, ort_K2 false v = Ok m /\ rows m = 3%nat /\ cols m = 3%nat /\
  forall e s, applies m 3 e s <-> law_of (KStiff2 false) (hooke_ort v) e s.
Proof.
  unfold ort_K2. fold E1 E2 E3 n12 n23 n31. rewrite guard_ok by (nz; apply o1). cbv zeta. rewrite guard_ok by (nz; apply oden0).
  mkred. eexists; split; [reflexivity|]; split; [reflexivity|]; split; [reflexivity|].
  assert (a := o1). assert (b := o2). assert (c := o3). assert (g1 := og1). assert (d := den0).
  assert (G13 := og2). assert (G23 := og3).
  assert (Q : ort_den v = - den) by (unfold ort_den, den; fold E1 E2 E3 n12 n23 n31; ring).
  assert (Q' : - den <> 0) by (apply Ropp_neq_0_compat; auto).
  intros e s. unfold law_of, hooke_ort. fold E1 E2 E3 n12 n23 n31. split.
  - intros H. unfold applies in H. app3 H. comp. rewrite Q in *.
    exists (E3 * (n31 / E3 * s 0%nat + n23 / E2 * s 1%nat)). cbn [plane].
    repeat match goal with h : s _ = _ |- _ => rewrite h; clear h end. unfold den in *. repeat split; try fin.
  - intros (x & h0 & h1 & h2 & h3 & h4 & h5) i Hi. cbn [plane] in *.
    assert (X : x = E3 * (n31 / E3 * s 0%nat + n23 / E2 * s 1%nat)).
    { assert (Z : 0 * E3 = (- (n31 / E3) * s 0%nat - n23 / E2 * s 1%nat + x / E3) * E3) by (rewrite <- h2; ring).
      replace ((- (n31 / E3) * s 0%nat - n23 / E2 * s 1%nat + x / E3) * E3) with (x - E3 * (n31 / E3 * s 0%nat + n23 / E2 * s 1%nat)) in Z by fin. lra. }
    idx3 i; comp; rewrite ?Q; rewrite ?h0, ?h1, ?h3, ?X; unfold den in *; fin.
Qed.
Lemma ort_K1_law : exists m, ort_K1 v = Ok m /\ rows m = 2%nat /\ cols m = 2%nat /\
  forall e s, applies m 2 e s <-> law_of KStiff1 (hooke_ort v) e s.
Proof.
  unfold ort_K1. mkred. eexists; split; [reflexivity|]; split; [reflexivity|]; split; [reflexivity|].
  assert (a := o1). assert (b := o2). assert (c := o3). assert (g1 := og1). assert (G13 := og2). assert (G23 := og3).
  intros e s. unfold law_of, hooke_ort. fold E1 E2 E3 n12 n23 n31. split.
  - intros H. unfold applies in H. app2 H. comp.
    exists (- (n12 / E1) * s 0%nat), (- (n31 / E3) * s 0%nat). cbn [bar].
    repeat match goal with h : s _ = _ |- _ => rewrite h; clear h end. change (v E11_) with E1. repeat split; fin.
  - intros (x & y & h0 & h1 & h2 & h3 & h4 & h5) i Hi. cbn [bar] in *.
    idx2 i; comp; rewrite ?h0, ?h3; fold E1; fin.
Qed.
Lemma ort_shear_law : v G13_ = v G12_ -> v G23_ = v G12_ -> exists m, ort_shear v = Ok m /\ rows m = 2%nat /\ cols m = 2%nat /\
  forall e s, applies m 2 e s <-> law_of KShear (hooke_ort v) e s.
Proof.
  intros Q1 Q2. unfold ort_shear. mkred. eexists; split; [reflexivity|]; split; [reflexivity|]; split; [reflexivity|].
  assert (a := o1). assert (b := o2). assert (c := o3). assert (g1 := og1).
  intros e s. unfold law_of, hooke_ort. fold E1 E2 E3 n12 n23 n31. rewrite Q1, Q2. split.
  - intros H. unfold applies in H. app2 H. comp. cbn [shears].
    repeat match goal with h : s _ = _ |- _ => rewrite h; clear h end. repeat split; fin.
  - intros (h0 & h1 & h2 & h3 & h4 & h5) i Hi. cbn [shears] in *.
    idx2 i; comp; rewrite ?h4, ?h5; fin.
Qed.
End Ort.
