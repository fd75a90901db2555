(** Theorems about the section cards: derivatives, plates, layers, bending models (C102-C107). *)
From Coquelicot Require Import Coquelicot.
From Coq Require Import List Arith Bool Reals Lra Lia.
From Verif Require Import Base BaseLemmas RBool Mat_Model Mat_Spec Mat_Proofs Coor_Model Coor_Proofs Sect_Model Sect_Spec Sect_Proofs Sect_Proofs2 Sect_Proofs3 Sect_Props.
Import ListNotations.
Open Scope R_scope.

(** ** C102: the derivatives a bar reports *)
Theorem C102_bar_constants : forall P t d, sec_deriv P t d ->
  is_derive (fun s => area (sec_at P s)) t (area_d (sec_at P t) d) /\ is_derive (fun s => ymom (sec_at P s)) t (ymom_d (sec_at P t) d) /\
  is_derive (fun s => zmom (sec_at P s)) t (zmom_d (sec_at P t) d) /\ is_derive (fun s => polar_in (sec_at P s)) t (polar_in_d (sec_at P t) d) /\
  mat_deriv (fun s => inert (sec_at P s)) t (inert_d (sec_at P t) d) /\ mat_deriv (fun s => shear_co (sec_at P s)) t (shear_co_d d) /\
  mat_deriv (fun s => inertia1 (sec_at P s)) t (inertia1_d (sec_at P t) d).
Proof.
  intros P t d D. split; [apply area_deriv; auto|]. split; [apply ymom_deriv; auto|]. split; [apply zmom_deriv; auto|]. split; [apply polar_deriv; auto|].
  split; [apply inert_deriv; auto|]. split; [apply shear_co_deriv; auto|]. apply inertia1_deriv; auto.
Qed.
Print Assumptions C102_bar_constants.
(** Torsion and extension: as long as the two sides differ. *)
Theorem C102_bar_torsion_partial : forall P t d F dC, sec_deriv P t d -> mat_path_deriv F t dC 2 2 -> positive_bar (sec_at P t) -> P hy_ t <> P hz_ t ->
  scalar_deriv (fun s => tors (sec_at P s)) t (tors_d (sec_at P t) d) /\
  mat_deriv (fun s => ext1 (mat_at 2 2 F s) (sec_at P s)) t (ext1_d (mat_at 2 2 F t) dC (sec_at P t) d).
Proof. intros P t d F dC D DF Po N. split; [apply (tors_deriv P t d D Po N)|apply ext1_deriv; auto]. Qed.
Print Assumptions C102_bar_torsion_partial.
(** A square bar: the torsional constant has a kink, and whatever is reported is not its derivative. *)
Theorem C102_square_bar_refuted : exists P t d, sec_deriv P t d /\ positive_bar (sec_at P t) /\ (exists x, tors_d (sec_at P t) d = Ok x) /\
  forall r, ~ scalar_deriv (fun s => tors (sec_at P s)) t (Ok r).
Proof.
  exists growing, 1, (fun x => match x with hy_ => 1 | _ => 0 end). split; [|split; [split; cbv; lra|split; [|exact tors_kink]]].
  - intros x. destruct x; first [exact (is_derive_id (1 : R))|apply (d_const 1)].
  - unfold tors_d, sec_at, growing. destruct (rltb 1 1); cbv zeta; rewrite guard_ok by (constructor; [lra|constructor]); eexists; reflexivity.
Qed.
Print Assumptions C102_square_bar_refuted.
(** The other matrices of a bar; the shear one provided the caller's matrix has the right size. *)
Theorem C102_bar_matrices : forall P t d F dC Al da, sec_deriv P t d -> mat_path_deriv F t dC 2 2 -> mat_path_deriv Al t da 2 1 ->
  let at' := sec_at P in let C := mat_at 2 2 F in let a := mat_at 2 1 Al in
  mat_deriv (fun s => extbend1 (C s) (at' s)) t (extbend1_d (C t) dC (at' t) d) /\
  mat_deriv (fun s => bend1 (C s) (at' s)) t (bend1_d (C t) dC (at' t) d) /\
  mat_deriv (fun s => thermA1 (C s) (a s) (at' s)) t (thermA1_d (C t) dC (a t) da (at' t) d) /\
  mat_deriv (fun s => thermB1 (C s) (a s) (at' s)) t (thermB1_d (C t) dC (a t) da (at' t) d).
Proof.
  intros P t d F dC Al da D DF DA at' C a. split; [apply extbend1_deriv; auto|]. split; [apply bend1_deriv; auto|].
  split; [apply thermA1_deriv; auto|apply thermB1_deriv; auto].
Qed.
Print Assumptions C102_bar_matrices.
Theorem C102_bar_heat : forall P t d r c F dM, sec_deriv P t d -> mat_path_deriv F t dM r c ->
  mat_deriv (fun s => times_area (mat_at r c F s) (sec_at P s)) t (times_area_d (mat_at r c F t) dM (sec_at P t) d).
Proof. intros. apply times_area_deriv; auto. Qed.
Print Assumptions C102_bar_heat.
Theorem C102_bar_shear_partial : forall P t d F dC m0, sec_deriv P t d -> mat_path_deriv F t dC 2 2 -> square m0 2 ->
  mat_deriv (fun s => trans1 (mat_at 2 2 F s) (sec_at P s)) t (trans1_d m0 (mat_at 2 2 F t) dC (sec_at P t) d).
Proof. intros. apply trans1_deriv; auto. Qed.
Print Assumptions C102_bar_shear_partial.
(** A caller's matrix with too few rows or columns is written outside its bounds. *)
Theorem C102_bar_shear_refuted : forall m0 G dG s d, square G 2 -> square dG 2 -> (rows m0 < 2 \/ cols m0 < 2)%nat ->
  exists f, trans1_d m0 G dG s d = Fault f.
Proof.
  intros m0 G dG s d (Gr & Gc) (dr & dc) Hs. rewrite (eta G 2 2 Gr Gc), (eta dG 2 2 dr dc).
  unfold trans1_d, shear_co, shear_co_d, trans1_ent. mred. destruct m0 as [r c f]. cbn [rows cols] in Hs. unfold mset. cbn [rows cols ent].
  destruct r as [|[|r]], c as [|[|c]]; try (exfalso; lia); cbn [rows cols ent Nat.ltb Nat.leb andb bind]; eexists; reflexivity.
Qed.
Print Assumptions C102_bar_shear_refuted.
Example C102_example : exists P t d F dC, sec_deriv P t d /\ mat_path_deriv F t dC 2 2 /\ positive_bar (sec_at P t) /\ P hy_ t <> P hz_ t /\ d hy_ = 1.
Proof.
  exists growing, 3, (fun x => match x with hy_ => 1 | _ => 0 end), (fun _ _ s => s), (mkMat 2 2 (fun _ _ => 1)).
  split; [intros x; destruct x; first [exact (is_derive_id (3 : R))|apply (d_const 1)]|].
  split; [split; [reflexivity|split; [reflexivity|intros i j _ _; exact (is_derive_id (3 : R))]]|].
  unfold positive_bar, sec_at, growing. lra.
Qed.

(** ** C103: the matrices of a plate give the resultants of its stresses and its kinetic energy *)
Theorem C103_plate_resultants : forall C s n, square C n ->
  exists A B D, ext2 C s = Ok A /\ extbend2 C s = Ok B /\ bend2 C s = Ok D /\ square A n /\ square B n /\ square D n /\
    forall e k i, (i < n)%nat ->
      through s (fun z => stress_at C n e k z i) = sum n (fun j => ent A i j * e j) + sum n (fun j => ent B i j * k j) /\
      through s (fun z => z * stress_at C n e k z i) = sum n (fun j => ent B i j * e j) + sum n (fun j => ent D i j * k j).
Proof.
  intros C s n (Cr & Cc). do 3 eexists. do 3 (split; [reflexivity|]). do 3 (split; [split; assumption|]). intros e k i Hi. cbn [mscl ent].
  set (se := sum n (fun j => ent C i j * e j)). set (sk := sum n (fun j => ent C i j * k j)).
  assert (L : forall z, stress_at C n e k z i = se + z * sk).
  { intros z. unfold stress_at, se, sk. rewrite <- sum_scl, <- sum_plus. apply sum_ext; intros; ring. }
  assert (S : forall c x, sum n (fun j => ent C i j * c * x j) = c * sum n (fun j => ent C i j * x j)).
  { intros c x. rewrite <- sum_scl. apply sum_ext; intros; ring. }
  rewrite !S. fold se sk. split.
  - rewrite (through_poly s _ se sk 0) by (intros; rewrite L; ring). ring.
  - rewrite (through_poly s _ 0 se sk) by (intros; rewrite L; ring). ring.
Qed.
Print Assumptions C103_plate_resultants.
Theorem C103_plate_shear_and_heat : forall G s n m, rows G = n -> cols G = m ->
  exists T H, trans2 G s = Ok T /\ ext2 G s = Ok H /\ rows T = n /\ cols T = m /\ rows H = n /\ cols H = m /\
    forall i j, ent T i j = through s (fun _ => s kap_ * ent G i j) /\ ent H i j = through s (fun _ => ent G i j).
Proof.
  intros G s n m Gr Gc. do 2 eexists. do 2 (split; [reflexivity|]). do 4 (split; [assumption|]). intros i j. cbn [mscl ent]. split.
  - rewrite (through_poly s _ (s kap_ * ent G i j) 0 0) by (intros; ring). ring.
  - rewrite (through_poly s _ (ent G i j) 0 0) by (intros; ring). ring.
Qed.
Print Assumptions C103_plate_shear_and_heat.
Theorem C103_plate_heated : forall C a s n, square C n -> rows a = n -> cols a = 1%nat ->
  exists tA tB, thermA2 C a s = Ok tA /\ thermB2 C a s = Ok tB /\ rows tA = n /\ cols tA = 1%nat /\ rows tB = n /\ cols tB = 1%nat /\
    forall i, (i < n)%nat -> let sig := stress_at C n (fun j => ent a j 0%nat) (fun _ => 0) in
      ent tA i 0%nat = through s (fun z => sig z i) /\ ent tB i 0%nat = through s (fun z => z * sig z i).
Proof.
  intros C a s n (Cr & Cc) ar ac. rewrite (eta C n n Cr Cc), (eta a n 1 ar ac). unfold thermA2, thermB2. mred.
  do 2 eexists. do 2 (split; [reflexivity|]). do 4 (split; [reflexivity|]). intros i Hi. cbv zeta. cbn [ent].
  assert (L : forall z, stress_at (mkMat n n (ent C)) n (fun j => ent a j 0%nat) (fun _ => 0) z i = sum n (fun j => ent C i j * ent a j 0%nat)).
  { intros z. unfold stress_at. cbn [ent]. apply sum_ext; intros; ring. }
  split.
  - rewrite (through_poly s _ (sum n (fun j => ent C i j * ent a j 0%nat)) 0 0) by (intros; rewrite L; ring). ring.
  - rewrite (through_poly s _ 0 (sum n (fun j => ent C i j * ent a j 0%nat)) 0) by (intros; rewrite L; ring). ring.
Qed.
Print Assumptions C103_plate_heated.
(** The kinetic energy, plus a millionth of the rotary inertia for turning about the normal. *)
Theorem C103_plate_kinetic : forall s q, exists M, inertia2 s = Ok M /\ square M 6 /\
  quad M 6 q = s den_ * (through s (plate_speed2 q) + s h_ ^ 3 / 12 / 1000000 * q 5%nat ^ 2).
Proof.
  intros s q. unfold inertia2. mred. eexists. split; [reflexivity|]. split; [split; reflexivity|].
  rewrite (through_poly s (plate_speed2 q) (q 0%nat ^ 2 + q 1%nat ^ 2 + q 2%nat ^ 2) (2 * q 0%nat * q 4%nat - 2 * q 1%nat * q 3%nat) (q 4%nat ^ 2 + q 3%nat ^ 2)) by (intros; unfold plate_speed2; ring).
  unfold quad. cbn [ent]. ents. field.
Qed.
Print Assumptions C103_plate_kinetic.
Definition sample_plate : sec := fun x => match x with h_ => 2 | off_ => 1 | _ => 1 end.
Example C103_example : exists A B, ext2 (mkMat 3 3 (fun i j => if Nat.eqb i j then 5 else 1)) sample_plate = Ok A /\
  extbend2 (mkMat 3 3 (fun i j => if Nat.eqb i j then 5 else 1)) sample_plate = Ok B /\ ent A 0%nat 0%nat = 10 /\ ent B 0%nat 1%nat = 2.
Proof. do 2 eexists. do 2 (split; [reflexivity|]). unfold sample_plate; cbn. lra. Qed.

(** ** C104: the derivatives a plate reports *)
Theorem C104_plate_matrices : forall P t d n m k F dC Al da, sec_deriv P t d -> mat_path_deriv F t dC n m -> mat_path_deriv Al t da m k ->
  let at' := sec_at P in let C := mat_at n m F in let a := mat_at m k Al in
  mat_deriv (fun s => ext2 (C s) (at' s)) t (ext2_d (C t) dC (at' t) d) /\
  mat_deriv (fun s => extbend2 (C s) (at' s)) t (extbend2_d (C t) dC (at' t) d) /\
  mat_deriv (fun s => bend2 (C s) (at' s)) t (bend2_d (C t) dC (at' t) d) /\
  mat_deriv (fun s => trans2 (C s) (at' s)) t (trans2_d (C t) dC (at' t) d) /\
  mat_deriv (fun s => thermA2 (C s) (a s) (at' s)) t (thermA2_d (C t) dC (a t) da (at' t) d) /\
  mat_deriv (fun s => thermB2 (C s) (a s) (at' s)) t (thermB2_d (C t) dC (a t) da (at' t) d).
Proof.
  intros P t d n m k F dC Al da D DF DA at' C a. split; [apply ext2_deriv; auto|]. split; [apply extbend2_deriv; auto|]. split; [apply bend2_deriv; auto|].
  split; [apply trans2_deriv; auto|]. split; [apply thermA2_deriv; auto|apply thermB2_deriv; auto].
Qed.
Print Assumptions C104_plate_matrices.
(** The inertia matrix: only without offset. *)
Theorem C104_plate_inertia_partial : forall P t d, sec_deriv P t d -> P off_ t = 0 -> d off_ = 0 ->
  mat_deriv (fun s => inertia2 (sec_at P s)) t (inertia2_d (sec_at P t) d).
Proof. intros. apply inertia2_deriv; auto. Qed.
Print Assumptions C104_plate_inertia_partial.
(** With an offset the coupling terms lack the density: a thickness parameter already shows it. *)
Definition thickening : sec_path := fun x s => match x with h_ => s | off_ => 1 | den_ => 2 | _ => 1 end.
Definition thickening_d : sec := fun x => match x with h_ => 1 | _ => 0 end.
Lemma thickening_deriv (t : R) : sec_deriv thickening t thickening_d.
Proof. intros x. destruct x; first [exact (is_derive_id (t : R))|apply (d_const 1)|apply (d_const 2)]. Qed.
Theorem C104_plate_inertia_refuted : sec_deriv thickening 1 thickening_d /\
  ~ mat_deriv (fun s => inertia2 (sec_at thickening s)) 1 (inertia2_d (sec_at thickening 1) thickening_d).
Proof.
  split; [apply thickening_deriv|]. intros (dd & E & _ & H). revert E. unfold inertia2_d; cbv zeta; mred. intros E. injection E as <-.
  specialize (H 0%nat 4%nat ltac:(cbn; lia) ltac:(cbn; lia)). cbn [ent] in H. revert H. ents. unfold sec_at, thickening, thickening_d. intros H.
  assert (H2 : is_derive (fun s : R => 1 * s * 2) 1 2).
  { eapply is_derive_eq; [apply d_mul; [apply d_mul; [apply d_const|exact (is_derive_id (1 : R))]|apply d_const]|]. cbv beta. unfold one; cbn. ring. }
  apply is_derive_unique in H. apply is_derive_unique in H2.
  assert (Q : Derive (fun s : R => entry (inertia2 (sec_at thickening s)) 0 4) 1 = Derive (fun s : R => 1 * s * 2) 1).
  { apply Derive_ext. intros s. unfold inertia2. mred. cbn [entry ent]. ents. unfold sec_at, thickening. ring. }
  assert (X : 2 = 0 * 1 + 1 * 1) by (rewrite <- H2 at 1; rewrite <- Q; exact H). lra.
Qed.
Print Assumptions C104_plate_inertia_refuted.
Example C104_example : sec_deriv (fun x s => match x with off_ => 0 | h_ => s | _ => 1 end) 2 (fun x => match x with h_ => 1 | _ => 0 end).
Proof. intros x; destruct x; first [exact (is_derive_id (2 : R))|apply (d_const 1)|apply (d_const 0)]. Qed.

(** ** C105: layers *)
(** Each layer fills the space between two interfaces; the stack as a whole lies as the base says. *)
Theorem C105_layers_stack : forall base hs,
  (forall i, (i < length hs)%nat -> exists o, layer_offset base i hs = Ok o /\
     o - nth i hs 0 / 2 = interface base hs i /\ o + nth i hs 0 / 2 = interface base hs (S i)) /\
  (forall i, (length hs <= i)%nat -> layer_offset base i hs = Fault OutOfBounds) /\
  interface base hs 0 = - ((1 + base) / 2) * total hs /\ interface base hs (length hs) = (1 - base) / 2 * total hs.
Proof.
  intros base hs. split; [|split; [|split]].
  - intros i Hi. eexists. split; [apply layer_offset_eq; auto|]. apply (layer_between base hs i); auto. apply layer_offset_eq; auto.
  - intros i Hi. unfold layer_offset.
    assert (Q : sum_first i hs = Fault OutOfBounds \/ exists x, sum_first i hs = Ok x).
    { clear Hi. revert i. induction hs as [|h hs IH]; intros [|i]; cbn [sum_first]; eauto. destruct (IH i) as [-> | (x & ->)]; cbn [bind]; eauto. }
    destruct Q as [-> | (x & ->)]; cbn [bind]; [reflexivity|]. unfold nth_h. rewrite (proj2 (nth_error_None hs i) Hi). reflexivity.
  - unfold interface. cbn. field.
  - unfold interface. rewrite firstn_all. field.
Qed.
Print Assumptions C105_layers_stack.
(** The derivative of a layer's place is the same expression of the derivatives of the thicknesses. *)
Theorem C105_place_derivative : forall base i (H : list (R -> R)) dh t, length dh = length H -> (i < length H)%nat ->
  (forall k, (k < length H)%nat -> is_derive (nth k H (fun _ => 0)) t (nth k dh 0)) ->
  scalar_deriv (fun s => layer_offset base i (map (fun h => h s) H)) t (layer_offset base i dh).
Proof.
  intros base i H dh t L Hi D.
  assert (T : forall (G : list (R -> R)) dg, length dg = length G -> (forall k, (k < length G)%nat -> is_derive (nth k G (fun _ => 0)) t (nth k dg 0)) ->
    is_derive (fun s => total (map (fun h => h s) G)) t (total dg)).
  { induction G as [|g G IH]; intros [|x dg] Lg Dg; cbn in Lg; try lia; [apply (d_const 0)|]. unfold total; cbn [map fold_right].
    apply (d_plus g (fun s => fold_right Rplus 0 (map (fun h => h s) G))); [exact (Dg 0%nat ltac:(cbn; lia))|]. apply IH; [lia|]. intros k Hk. exact (Dg (S k) ltac:(cbn; lia)). }
  eexists. exists (fun s => total (firstn i (map (fun h => h s) H)) + 1 / 2 * nth i (map (fun h => h s) H) 0 - 1 / 2 * (1 + base) * total (map (fun h => h s) H)).
  split; [apply layer_offset_eq; lia|]. split; [apply filter_forall; intros s; apply layer_offset_eq; rewrite map_length; auto|].
  assert (T1 := T H dh L D).
  assert (T2 : is_derive (fun s => total (firstn i (map (fun h => h s) H))) t (total (firstn i dh))).
  { apply d_ext with (f := fun s => total (map (fun h => h s) (firstn i H))); [intros s; rewrite firstn_map; reflexivity|].
    apply T; [rewrite !firstn_length; lia|]. intros k Hk. rewrite firstn_length in Hk.
    rewrite <- (firstn_skipn i H) in D. rewrite <- (firstn_skipn i dh) in D. specialize (D k ltac:(rewrite app_length, firstn_length; lia)).
    rewrite !app_nth1 in D by (rewrite firstn_length; lia). exact D. }
  assert (T3 : is_derive (fun s => nth i (map (fun h => h s) H) 0) t (nth i dh 0)).
  { apply d_ext with (f := nth i H (fun _ => 0)); [|apply D; auto]. intros s. symmetry. exact (map_nth (fun h : R -> R => h s) H (fun _ => 0) i). }
  eapply is_derive_eq; [apply d_minus; [apply d_plus; [exact T2|apply d_mul; [apply d_const|exact T3]]|apply d_mul; [apply d_const|exact T1]]|]. cbv beta. ring.
Qed.
Print Assumptions C105_place_derivative.
(** The stiffness of a stack of plates: the resultants of the stresses over all layers, each with its own material. *)
Theorem C105_stack_resultants : forall base (l : list sec) Cm n m0, l <> [] -> (forall k, (k < length l)%nat -> square (Cm k) n) ->
  exists A B D, layered2 (fun k => ext2 (Cm k)) base l m0 = Ok A /\ layered2 (fun k => extbend2 (Cm k)) base l m0 = Ok B /\
    layered2 (fun k => bend2 (Cm k)) base l m0 = Ok D /\ square A n /\ square B n /\ square D n /\
    forall e k i, (i < n)%nat -> let zs := interface base (map (fun s => s h_) l) in
      sum (length l) (fun L => RInt (fun z => stress_at (Cm L) n e k z i) (zs L) (zs (S L))) = sum n (fun j => ent A i j * e j) + sum n (fun j => ent B i j * k j) /\
      sum (length l) (fun L => RInt (fun z => z * stress_at (Cm L) n e k z i) (zs L) (zs (S L))) = sum n (fun j => ent B i j * e j) + sum n (fun j => ent D i j * k j).
Proof.
  intros base l Cm n m0 N Sq.
  destruct (layered2_ok (fun k => ext2 (Cm k)) base l m0 n n (fun k s => mscl (s h_) (Cm k)) N) as (A & EA & Ar & Ac & HA).
  { intros i o Hi s. destruct (Sq i Hi). split; [reflexivity|]. split; assumption. }
  destruct (layered2_ok (fun k => extbend2 (Cm k)) base l m0 n n (fun k s => mscl (s h_ * s off_) (Cm k)) N) as (B & EB & Br & Bc & HB).
  { intros i o Hi s. destruct (Sq i Hi). split; [reflexivity|]. split; assumption. }
  destruct (layered2_ok (fun k => bend2 (Cm k)) base l m0 n n (fun k s => mscl (s h_ ^ 3 / 12 + s h_ * s off_ ^ 2) (Cm k)) N) as (D & ED & Dr & Dc & HD).
  { intros i o Hi s. destruct (Sq i Hi). split; [reflexivity|]. split; assumption. }
  exists A, B, D. do 3 (split; [assumption|]). do 3 (split; [split; assumption|]). intros e k i Hi zs.
  assert (Row : forall M (g : nat -> sec -> mat R) x, (forall i j, ent M i j = sum (length l) (fun L => ent (g L (place2 base l L)) i j)) ->
    sum n (fun j => ent M i j * x j) = sum (length l) (fun L => sum n (fun j => ent (g L (place2 base l L)) i j * x j))).
  { intros M g x HM. rewrite (sum_swap (length l) n). apply sum_ext. intros j _. rewrite HM. rewrite Rmult_comm, <- sum_scl. apply sum_ext; intros; ring. }
  rewrite !(Row A (fun k s => mscl (s h_) (Cm k)) _ HA), !(Row B (fun k s => mscl (s h_ * s off_) (Cm k)) _ HB), !(Row D (fun k s => mscl (s h_ ^ 3 / 12 + s h_ * s off_ ^ 2) (Cm k)) _ HD).
  rewrite <- !sum_plus. unfold zs. split; apply sum_ext; intros L HL; rewrite place2_through by auto;
    destruct (C103_plate_resultants (Cm L) (place2 base l L) n (Sq L HL)) as (A' & B' & D' & E1 & E2 & E3 & _ & _ & _ & Q);
    injection E1 as <-; injection E2 as <-; injection E3 as <-; apply (Q e k i Hi).
Qed.
Print Assumptions C105_stack_resultants.
(** The kinetic energy of a stack of plates. *)
Theorem C105_stack_kinetic : forall base (l : list sec) m0 q, l <> [] -> exists M, layered2 (fun _ => inertia2) base l m0 = Ok M /\ square M 6 /\
  let zs := interface base (map (fun s => s h_) l) in
  quad M 6 q = sum (length l) (fun L => let s := nth L l (fun _ => 0) in s den_ * (RInt (plate_speed2 q) (zs L) (zs (S L)) + s h_ ^ 3 / 12 / 1000000 * q 5%nat ^ 2)).
Proof.
  intros base l m0 q N.
  destruct (layered2_ok (fun _ => inertia2) base l m0 6 6 (fun _ s => matof (inertia2 s)) N) as (M & EM & Mr & Mc & HM).
  { intros i o Hi s. destruct (C103_plate_kinetic s q) as (I & EI & (Ir & Ic) & _). rewrite EI. cbn [matof]. auto. }
  exists M. split; [exact EM|]. split; [split; assumption|]. intros zs.
  assert (Q : quad M 6 q = sum (length l) (fun L => quad (matof (inertia2 (place2 base l L))) 6 q)).
  { unfold quad. rewrite (sum_swap (length l) 6). apply sum_ext. intros i _. rewrite (sum_swap (length l) 6). apply sum_ext. intros j _. rewrite HM.
    transitivity (q i * q j * sum (length l) (fun L => ent (matof (inertia2 (place2 base l L))) i j)); [unfold place2; ring|]. rewrite <- sum_scl. apply sum_ext; intros; ring. }
  rewrite Q. apply sum_ext. intros L HL. cbv zeta. unfold zs. rewrite place2_through by auto.
  destruct (C103_plate_kinetic (place2 base l L) q) as (I & EI & _ & K).
  rewrite EI. cbn [matof]. rewrite K. reflexivity.
Qed.
Print Assumptions C105_stack_kinetic.
(** The axial and bending stiffness of a stack of bars; the torsional stiffness is the sum over the layers. *)
Theorem C105_bar_stack : forall base (l : list sec) Cm m0, l <> [] ->
  (forall k, (k < length l)%nat -> square (Cm k) 2 /\ positive_bar (nth k l (fun _ => 0)) /\ ent (Cm k) 0%nat 1%nat = 0 /\ ent (Cm k) 1%nat 0%nat = 0) ->
  exists A B D, layered1 (fun k => ext1 (Cm k)) base l m0 = Ok A /\ layered1 (fun k => extbend1 (Cm k)) base l m0 = Ok B /\
    layered1 (fun k => bend1 (Cm k)) base l m0 = Ok D /\ square A 2 /\ square B 2 /\ square D 2 /\
    (forall e ky kz, let zs := interface base (map (fun s => s hz_) l) in
      let all f := sum (length l) (fun L => let s := nth L l (fun _ => 0) in
         RInt (fun y => RInt (fun z => f y z * (ent (Cm L) 0%nat 0%nat * axial e ky kz y z)) (zs L) (zs (S L))) (s oy_ - s hy_ / 2) (s oy_ + s hy_ / 2)) in
      all (fun _ _ => 1) = ent A 0%nat 0%nat * e + (ent B 0%nat 0%nat * ky + ent B 0%nat 1%nat * kz) /\
      all (fun y _ => y) = ent B 0%nat 0%nat * e + (ent D 0%nat 0%nat * ky + ent D 0%nat 1%nat * kz) /\
      all (fun _ z => z) = ent B 0%nat 1%nat * e + (ent D 1%nat 0%nat * ky + ent D 1%nat 1%nat * kz)) /\
    ent A 1%nat 1%nat = sum (length l) (fun L => let s := nth L l (fun _ => 0) in ent (Cm L) 1%nat 1%nat * roark (Rmax (s hy_) (s hz_)) (Rmin (s hy_) (s hz_))).
Proof.
  intros base l Cm m0 N Hc.
  assert (Hp : forall k o, (k < length l)%nat -> positive_bar (with_oz (nth k l (fun _ => 0)) o)) by (intros k o Hk; destruct (Hc k Hk) as (_ & Q & _); exact Q).
  assert (G : forall k o, (k < length l)%nat -> exists A B D, let s := with_oz (nth k l (fun _ => 0)) o in ext1 (Cm k) s = Ok A /\ extbend1 (Cm k) s = Ok B /\ bend1 (Cm k) s = Ok D /\ square A 2 /\ square B 2 /\ square D 2).
  { intros k o Hk. destruct (bar_stiff (Cm k) _ (proj1 (Hc k Hk)) (Hp k o Hk)) as (A & B & D & E1 & E2 & E3 & S1 & S2 & S3 & _). exists A, B, D. cbv zeta. auto 10. }
  destruct (layered1_ok (fun k => ext1 (Cm k)) base l m0 2 2 (fun k s => matof (ext1 (Cm k) s)) N) as (A & EA & Ar & Ac & HA).
  { intros i o Hi s. destruct (G i o Hi) as (A & B & D & E1 & E2 & E3 & (S1 & S1') & _). fold s in E1. rewrite E1. cbn [matof]. auto. }
  destruct (layered1_ok (fun k => extbend1 (Cm k)) base l m0 2 2 (fun k s => matof (extbend1 (Cm k) s)) N) as (B & EB & Br & Bc & HB).
  { intros i o Hi s. destruct (G i o Hi) as (A' & B & D & E1 & E2 & E3 & _ & (S1 & S1') & _). fold s in E2. rewrite E2. cbn [matof]. auto. }
  destruct (layered1_ok (fun k => bend1 (Cm k)) base l m0 2 2 (fun k s => matof (bend1 (Cm k) s)) N) as (D & ED & Dr & Dc & HD).
  { intros i o Hi s. destruct (G i o Hi) as (A' & B' & D & E1 & E2 & E3 & _ & _ & (S1 & S1')). fold s in E3. rewrite E3. cbn [matof]. auto. }
  exists A, B, D. do 3 (split; [assumption|]). do 3 (split; [split; assumption|]).
  pose proof (fun L HL => C100_bar_resultants (Cm L) (place1 base l L) (proj1 (Hc L HL)) (proj1 (proj2 (proj2 (Hc L HL)))) (proj2 (proj2 (proj2 (Hc L HL)))) (Hp L _ HL)) as Each.
  cbv beta zeta in Each.
  split.
  - intros e ky kz zs all. rewrite !HA, !HB, !HD. unfold all. 
    assert (Comb : forall (f g h : nat -> R) x y z, sum (length l) f * x + (sum (length l) g * y + sum (length l) h * z) = sum (length l) (fun L => f L * x + (g L * y + h L * z))).
    { intros f g h x y z. rewrite !(Rmult_comm (sum _ _)), <- !sum_scl, <- !sum_plus. apply sum_ext; intros; ring. }
    rewrite !Comb. repeat split; apply sum_ext; intros L HL; cbv zeta; unfold zs; rewrite (place1_over base l L) by auto;
      destruct (Each L HL) as (A' & B' & D' & J & E1 & E2 & E3 & _ & _ & _ & _ & Q & _); unfold place1 in E1, E2, E3; rewrite ?E1, ?E2, ?E3; cbn [matof];
      destruct (Q e ky kz) as (Q1 & Q2 & Q3).
    + rewrite <- Q1. unfold over. apply RInt_ext; intros; apply RInt_ext; intros; cbv beta; apply Rmult_1_l.
    + exact Q2.
    + exact Q3.
  - rewrite HA. apply sum_ext. intros L HL. cbv zeta. destruct (Each L HL) as (A' & B' & D' & J & E1 & _ & _ & EJ & _ & _ & _ & _ & Q & _).
    unfold place1 in E1. rewrite E1. cbn [matof]. rewrite Q. rewrite tors_eq in EJ by (apply Hp; auto). injection EJ as <-. reflexivity.
Qed.
Print Assumptions C105_bar_stack.
(** Without layers the matrix handed in comes back as it was. *)
Theorem C105_no_layers : forall f base m0, layered2 f base [] m0 = Ok m0 /\ layered1 f base [] m0 = Ok m0.
Proof. intros. split; reflexivity. Qed.
Example C105_example : exists o, layer_offset 0 1 [1; 2; 3] = Ok o /\ o = -1 /\ interface 0 [1; 2; 3] 1 = -2 /\ interface 0 [1; 2; 3] 2 = 0.
Proof. eexists. split; [apply layer_offset_eq; cbn; lia|]. unfold interface, total; cbn. lra. Qed.

(** ** C106: destroying a layered section *)
Definition dec (a b : obj) : {a = b} + {a <> b}.
Proof. decide equality; apply Nat.eq_dec. Defined.
Theorem C106_deleted_per_layer : forall h x, In x h -> NoDup h -> count_occ dec (destroyed h) (OThick x) = length h.
Proof.
  intros h x Hx Nd. unfold destroyed.
  assert (C1 : count_occ dec (map OThick h) (OThick x) = 1%nat).
  { clear - Hx Nd. induction h as [|y h IH]; [contradiction|]. inversion Nd as [|? ? N1 N2]; subst. cbn [map count_occ]. destruct (dec (OThick y) (OThick x)) as [E|E].
    - injection E as ->. f_equal. apply count_occ_not_In. intros Q. apply in_map_iff in Q. destruct Q as (z & Q & Hz). injection Q as ->. contradiction.
    - apply IH; [|auto]. destruct Hx as [->|Hx]; [contradiction E; reflexivity|exact Hx]. }
  generalize (seq 0 (length h)) (seq_length (length h) 0). intros sq Hsq. rewrite <- Hsq. clear Hsq. induction sq as [|i sq IH]; [reflexivity|].
  cbn [flat_map]. rewrite !count_occ_app, C1, IH. cbn [count_occ length]. destruct (dec (OOffset i) (OThick x)); [discriminate|]. lia.
Qed.
Theorem C106_destroyed_once_partial : NoDup (destroyed []) /\ forall x, NoDup (destroyed [x]).
Proof. split; [constructor|]. intros x. cbn. repeat constructor; cbn; intuition discriminate. Qed.
Theorem C106_destroyed_once_refuted : forall h, (2 <= length h)%nat -> ~ NoDup (destroyed h).
Proof.
  intros h Hl. destruct h as [|x [|y h]]; cbn in Hl; try lia. intros Nd. unfold destroyed in Nd. cbn [length seq flat_map map] in Nd.
  cbn [app] in Nd. inversion Nd as [|? ? N1 N2]; subst. apply N1. right. apply in_or_app. right. cbn. left. reflexivity.
Qed.
Print Assumptions C106_deleted_per_layer.

(** ** C107: the bending model *)
Theorem C107_bar_model_partial : forall set two_node first, (set = DEFAULT_BENDING -> two_node = true -> first = true) ->
  bending_1d set two_node first = match wanted1 set two_node first with Some b => Ok b | None => Fault LibError end.
Proof. intros [] [] [] H; try reflexivity; specialize (H eq_refl eq_refl); discriminate. Qed.
Theorem C107_bar_model_refuted : bending_1d DEFAULT_BENDING true false = Ok DEFAULT_BENDING /\ wanted1 DEFAULT_BENDING true false = Some TIMOSHENKO.
Proof. split; reflexivity. Qed.
Theorem C107_plate_model_partial : forall set tri3 first, (tri3 = true -> set = DEFAULT_BENDING \/ set = MINDLIN) ->
  bending_2d set tri3 first = wanted2 set tri3 first.
Proof. intros [] [] [] H; try reflexivity; destruct (H eq_refl); discriminate. Qed.
Theorem C107_plate_model_refuted : forall first, bending_2d NO_BENDING true first = MINDLIN /\ bending_2d DKT true first = MINDLIN.
Proof. intros []; split; reflexivity. Qed.
Example C107_example : bending_2d NO_BENDING false true = NO_BENDING /\ bending_1d DEFAULT_BENDING true true = Ok BERNOULLI.
Proof. split; reflexivity. Qed.
