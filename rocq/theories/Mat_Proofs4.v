(** Proofs about the material cards: derivative of the orthotropic stiffness in three dimensions. *)
From Coquelicot Require Import Coquelicot.
From Coq Require Import List Arith Bool Reals Lra Lia.
From Verif Require Import Base RBool Mat_Model Mat_Spec Mat_Proofs Mat_Proofs2 Mat_Proofs3.
Import ListNotations.
Open Scope R_scope.

Lemma quot_deriv (N D : R -> R) (t dN dD x : R) : is_derive N t dN -> is_derive D t dD -> D t <> 0 ->
  x = N t * (- dD / D t / D t) + dN * / D t -> is_derive (fun s => N s * / D s) t x.
Proof.
  intros HN HD H0 ->. 
  assert (A : ex_derive N t) by (exists dN; auto). assert (B : ex_derive D t) by (exists dD; auto).
  auto_derive; [auto|]. replace (Derive (fun x => N x) t) with dN by (symmetry; apply is_derive_unique; auto).
  replace (Derive (fun x => D x) t) with dD by (symmetry; apply is_derive_unique; auto). field. auto.
Qed.

Section Paths.
Variable P : path.
Variable t : R.
Variable d : props.
Hypothesis dP : path_deriv P t d.
Let v := at_ P t.
Hypothesis H1 : v E11_ <> 0.
Hypothesis H2 : v E22_ <> 0.
Hypothesis H3 : v E33_ <> 0.
Let f21 (s : R) := nu21 (at_ P s).
Let f13 (s : R) := nu13 (at_ P s).
Let f32 (s : R) := nu32 (at_ P s).
Let g21 := d nu12_ * v E22_ / v E11_ + v nu12_ * d E22_ / v E11_ - v nu12_ * v E22_ / v E11_ / v E11_ * d E11_.
Let g13 := d nu31_ * v E11_ / v E33_ + v nu31_ * d E11_ / v E33_ - v nu31_ * v E11_ / v E33_ / v E33_ * d E33_.
Let g32 := d nu23_ * v E33_ / v E22_ + v nu23_ * d E33_ / v E22_ - v nu23_ * v E33_ / v E22_ / v E22_ * d E22_.
Ltac r0 := repeat rewrite (dval P t d dP).
Lemma df21 : is_derive f21 t g21.
Proof. unfold f21, g21, nu21, v, at_ in *. auto_derive; [repeat split; auto using (dex P t d dP)|]. r0. field. auto. Qed.
Lemma df13 : is_derive f13 t g13.
Proof. unfold f13, g13, nu13, v, at_ in *. auto_derive; [repeat split; auto using (dex P t d dP)|]. r0. field. auto. Qed.
Lemma df32 : is_derive f32 t g32.
Proof. unfold f32, g32, nu32, v, at_ in *. auto_derive; [repeat split; auto using (dex P t d dP)|]. r0. field. auto. Qed.
Lemma e21 : ex_derive f21 t. Proof. exists g21; apply df21. Qed.
Lemma e13 : ex_derive f13 t. Proof. exists g13; apply df13. Qed.
Lemma e32 : ex_derive f32 t. Proof. exists g32; apply df32. Qed.
Lemma u21 : Derive (fun s => f21 s) t = g21. Proof. apply is_derive_unique, df21. Qed.
Lemma u13 : Derive (fun s => f13 s) t = g13. Proof. apply is_derive_unique, df13. Qed.
Lemma u32 : Derive (fun s => f32 s) t = g32. Proof. apply is_derive_unique, df32. Qed.
Definition fD (s : R) : R := ort_D (at_ P s).
Definition gD : R :=
  - d nu12_ * f21 t - v nu12_ * g21 - g13 * v nu31_ - f13 t * d nu31_ - d nu23_ * f32 t - v nu23_ * g32
  - d nu12_ * v nu23_ * v nu31_ - v nu12_ * d nu23_ * v nu31_ - v nu12_ * v nu23_ * d nu31_
  - g13 * f21 t * f32 t - f13 t * g21 * f32 t - f13 t * f21 t * g32.
Ltac ndx := auto using (dex P t d dP), e21, e13, e32.
Lemma dfD : is_derive fD t gD.
Proof.
  apply is_derive_ext with (f := fun s => 1 - P nu12_ s * f21 s - f13 s * P nu31_ s - P nu23_ s * f32 s
     - P nu12_ s * P nu23_ s * P nu31_ s - f13 s * f21 s * f32 s); [intros; reflexivity|].
  auto_derive; [repeat split; ndx|]. r0. rewrite u21, u13, u32. unfold gD, v, at_. ring.
Qed.
Definition blk (s : R) : list (nat * nat * R) :=
  [W 0 0 ((1 - P nu23_ s * f32 s) * P E11_ s); W 0 1 ((f21 s + P nu23_ s * P nu31_ s) * P E11_ s); W 0 2 ((P nu31_ s + f21 s * f32 s) * P E11_ s);
   W 1 0 ((P nu12_ s + f13 s * f32 s) * P E22_ s); W 1 1 ((1 - f13 s * P nu31_ s) * P E22_ s); W 1 2 ((f32 s + P nu12_ s * P nu31_ s) * P E22_ s);
   W 2 0 ((f13 s + P nu12_ s * P nu23_ s) * P E33_ s); W 2 1 ((P nu23_ s + f13 s * f21 s) * P E33_ s); W 2 2 ((1 - P nu12_ s * f21 s) * P E33_ s)].
Lemma blk_eq s : ort_block (at_ P s) = blk s.
Proof. reflexivity. Qed.
Lemma ort_K3_eq : ort_D v <> 0 -> ort_K3_d v d = Ok (mkMat 6 6 (fun i j =>
   upds [W 3 3 (d G12_); W 4 4 (d G23_); W 5 5 (d G13_)] (fun i j => upds (blk t) (fun _ _ => 0) i j * (- gD / fD t / fD t)) i j
   + upds [W 0 0 ((- d nu23_ * f32 t - P nu23_ t * g32) * P E11_ t + (1 - P nu23_ t * f32 t) * d E11_);
       W 0 1 ((g21 + d nu23_ * P nu31_ t + P nu23_ t * d nu31_) * P E11_ t + (f21 t + P nu23_ t * P nu31_ t) * d E11_);
       W 0 2 ((d nu31_ + g21 * f32 t + f21 t * g32) * P E11_ t + (P nu31_ t + f21 t * f32 t) * d E11_);
       W 1 0 ((d nu12_ + g13 * f32 t + f13 t * g32) * P E22_ t + (P nu12_ t + f13 t * f32 t) * d E22_);
       W 1 1 ((- g13 * P nu31_ t - f13 t * d nu31_) * P E22_ t + (1 - f13 t * P nu31_ t) * d E22_);
       W 1 2 ((g32 + d nu12_ * P nu31_ t + P nu12_ t * d nu31_) * P E22_ t + (f32 t + P nu12_ t * P nu31_ t) * d E22_);
       W 2 0 ((g13 + d nu12_ * P nu23_ t + P nu12_ t * d nu23_) * P E33_ t + (f13 t + P nu12_ t * P nu23_ t) * d E33_);
       W 2 1 ((d nu23_ + g13 * f21 t + f13 t * g21) * P E33_ t + (P nu23_ t + f13 t * f21 t) * d E33_);
       W 2 2 ((- d nu12_ * f21 t - P nu12_ t * g21) * P E33_ t + (1 - P nu12_ t * f21 t) * d E33_)] (fun _ _ => 0) i j * / fD t)).
Proof.
  intros HD. unfold ort_K3_d. cbv zeta. rewrite guard_ok by (nz; assumption). mkred. reflexivity.
Qed.

Lemma ort_K3_deriv : ort_D v <> 0 -> mat_deriv (fun s => ort_K3 (at_ P s)) t (ort_K3_d v d).
Proof.
  intros HD. rewrite ort_K3_eq by auto.
  eapply (mat_deriv_intro _ _ 6 6 (fun s => upds [W 3 3 (P G12_ s); W 4 4 (P G23_ s); W 5 5 (P G13_ s)]
    (fun i j => if (Nat.ltb i 3 && Nat.ltb j 3)%bool then upds (blk s) (fun _ _ => 0) i j * / fD s else upds (blk s) (fun _ _ => 0) i j))); try reflexivity.
  - eapply filter_imp; [|apply (guard_loc [P E11_; P E33_; P E22_; fD]
       (fun s => m <- mk 6 6 (ort_block (at_ P s)) ;; wr [W 3 3 (P G12_ s); W 4 4 (P G23_ s); W 5 5 (P G13_ s)] (corner_scl 3 (/ fD s) m)) t)].
    + intros s Q. unfold ort_K3. cbn [map] in Q. unfold fD, at_ in Q. unfold at_ at 1 2 3 4. unfold at_ in *. rewrite Q. mkred. reflexivity.
    + nz; (split; [|assumption]); [apply (dex P t d dP)..|]. exists gD. apply dfD.
  - intros i j Hi Hj.
    assert (Z : forall x, x = 0 -> is_derive (fun _ : R => 0) t x) by (intros ? ->; apply @is_derive_const).
    assert (Kp : forall y x, x = d y -> is_derive (fun s : R => P y s) t x) by (intros ? ? ->; apply dP).
    assert (D0 := dfD). assert (F0 : fD t <> 0) by exact HD.
    pose proof e21 as q1. pose proof e13 as q2. pose proof e32 as q3. pose proof u21 as w1. pose proof u13 as w2. pose proof u32 as w3.
    assert (q := dex P t d dP). assert (w := dval P t d dP).
    unfold blk. clearbody f21 f13 f32 g21 g13 g32. generalize dependent gD. generalize dependent fD. intros fD F0 gD D0.
    clear H1 H2 H3 HD. clear dP. cbn [ent].
    idx6 i; idx6 j; comp;
    lazymatch goal with
    | |- is_derive (fun _ => 0) _ _ => apply Z; ring
    | |- is_derive (fun s => _ * / fD s) _ _ =>
        eapply quot_deriv with (dD := gD); [ | exact D0 | exact F0 | cbv beta; reflexivity ];
        auto_derive; [repeat split; auto|]; repeat rewrite w; rewrite ?w1, ?w2, ?w3; ring
    | |- _ => apply Kp; ring
    end.
Qed.
End Paths.
