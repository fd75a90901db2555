(** C160: stress and strain of a beam at the corners of its section *)
From Coq Require Import Reals Lra.
From Coquelicot Require Import Coquelicot.
From Coq Require Import List Arith Bool Lia.
From Verif Require Import Base BaseLemmas Sens_Spec Sens_Proofs Sens_Proofs2 Heat_Proofs Solid_Model Solid_Spec Solid_Proofs2 Dof6_Model Beam_Model Beam_Spec
  Dof6_Proofs Beam_Proofs Beam_Proofs2 Beam_Props Plate_Model Plate_Spec Plate_Proofs Rec_Model Rec_Spec Rec_Proofs Rec_Proofs2.
Import ListNotations.
Open Scope R_scope.

Definition weight (st : list pdata) : R := fold_right Rplus 0 (map d_w st).

Definition beam_data n vk b t D U q k : pdata :=
  let e := beam_strain n vk b D q k (to_local t U) in
  mkD (first (mv 2 (b_C D q) e 0%nat)) (first (e 0%nat)) (jxw q) None [].
Lemma beam_values n vk b t qs D U : beam_stress n vk b t qs D U false None [] =
  Ok (flat_map (fun q => map (beam_data n vk b t D U q) (seq 0 4)) qs, false).
Proof.
  unfold beam_stress. rewrite (add_loop 4 (beam_data n vk b t D U) (beam_body n vk b t D U false None)).
  - cbn [bind]. rewrite app_nil_l, added_length, Nat.eqb_refl. reflexivity.
  - reflexivity.
  - intros; split; reflexivity.
  - reflexivity.
Qed.

(** the stress along the axis and the strain without the free thermal strain, at the four corners of every quadrature
    point *)
Theorem C160_value : forall n vk b t qs D U, fits b n -> exists st,
  beam_stress n vk b t qs D U false None [] = Ok (st, false) /\ length st = (4 * length qs)%nat /\
  forall i k q, nth_error qs i = Some q -> (k < 4)%nat -> exists d, nth_error st (4 * i + k) = Some d /\
    d_strain d 0%nat = beam_e vk b n D q k (in_axes t U) /\ d_stress d 0%nat = beam_s vk b n D q k (in_axes t U) /\
    (forall r, (0 < r)%nat -> d_strain d r = 0 /\ d_stress d r = 0) /\ d_w d = jxw q.
Proof.
  intros n vk b t qs D U Hf. rewrite in_axes_eq. eexists. split; [apply beam_values|]. split.
  - rewrite added_length. lia.
  - intros i k q Hq Hk. exists (beam_data n vk b t D U q k). split; [now apply added_nth|].
    destruct (strain_eq n vk b Hf D q k (to_local t U) Hk) as [E0 E1]. unfold beam_data. cbv zeta. cbn [d_strain d_stress d_w first].
    split; [exact E0|]. split.
    + unfold mv. cbn [sum]. rewrite E0, E1. unfold beam_s. lra.
    + split; [|reflexivity]. intros [|r] Hr; [lia|]. split; reflexivity.
Qed.

Lemma beam_change n vk b t qs D U req p st : (req = true \/ p <> None) -> length st = (4 * length qs)%nat -> exists F st',
  beam_stress n vk b t qs D U req p st = Ok (st', true) /\ length st' = length st /\
  (forall i k q d, nth_error qs i = Some q -> (k < 4)%nat -> nth_error st (4 * i + k) = Some d -> nth_error st' (4 * i + k) = Some (F q k d)) /\
  F = fun q k d =>
      let u := to_local t U in
      let M := beam_dstrain n vk b D q k u in
      let d := if req then set_derivatives (first_row (to_global t (mm 2 (b_C D q) M 0%nat))) (first_row (to_global t (M 0%nat))) d else d in
      match p with
      | Some (f, D', Us) => let '(s', e') := beam_dp n vk b D D' q k u (to_local t Us) in
          set_sensitivity f (first (s' 0%nat)) (first (e' 0%nat)) d
      | None => d end.
Proof.
  intros Hp Hl. set (F := fun (q : qpt) (k : nat) (d : pdata) => 
      let u := to_local t U in
      let M := beam_dstrain n vk b D q k u in
      let d := if req then set_derivatives (first_row (to_global t (mm 2 (b_C D q) M 0%nat))) (first_row (to_global t (M 0%nat))) d else d in
      match p with
      | Some (f, D', Us) => let '(s', e') := beam_dp n vk b D D' q k u (to_local t Us) in
          set_sensitivity f (first (s' 0%nat)) (first (e' 0%nat)) d
      | None => d end).
  destruct (change_loop 4 F (beam_body n vk b t D U req p)) with (qs := qs) (i := 0%nat) (st := st) as (st' & E & L & N & _).
  - intros qp q k s. unfold beam_body. destruct req, p as [p|]; try reflexivity. destruct Hp as [H|H]; congruence.
  - lia.
  - exists F, st'. split; [|split; [exact L|split; [|reflexivity]]].
    + unfold beam_stress. rewrite E. cbn [bind]. rewrite L, Hl. replace (length qs * 4)%nat with (4 * length qs)%nat by lia.
      rewrite Nat.eqb_refl. destruct req, p as [p|]; try reflexivity. destruct Hp as [H|H]; congruence.
    + intros i k q d Hq Hk Hd. specialize (N i q k Hq Hk). cbn [Nat.add] in N. rewrite N, Hd. reflexivity.
Qed.

(** the derivatives stored for a solution are those of stress and strain, in global axes *)
Theorem C160_derivative : forall n vk b t qs D U0 p st, fits b n -> length st = (4 * length qs)%nat -> exists st',
  beam_stress n vk b t qs D U0 true p st = Ok (st', true) /\ length st' = length st /\
  forall i k q d, nth_error qs i = Some q -> (k < 4)%nat -> nth_error st (4 * i + k) = Some d ->
  exists d' ds de, nth_error st' (4 * i + k) = Some d' /\ d_dX d' = Some (ds, de) /\
    d_stress d' = d_stress d /\ d_strain d' = d_strain d /\ d_w d' = d_w d /\
    (forall r c a, (0 < r)%nat -> ds r c a = 0 /\ de r c a = 0) /\
    forall (U : R -> dofs) dU (t0 : R), U t0 = U0 -> history6 n t0 U dU ->
      is_derive (fun s : R => beam_e vk b n D q k (in_axes t (U s))) t0 (dot6 n (de 0%nat) dU) /\
      is_derive (fun s : R => beam_s vk b n D q k (in_axes t (U s))) t0 (dot6 n (ds 0%nat) dU).
Proof.
  intros n vk b t qs D U0 p st Hf Hl.
  destruct (beam_change n vk b t qs D U0 true p st) as (F & st' & E & L & N & HF); [now left|exact Hl|].
  exists st'. split; [exact E|]. split; [exact L|]. intros i k q d Hq Hk Hd. specialize (N i k q d Hq Hk Hd). rewrite HF in N. cbv zeta in N.
  eexists. eexists. eexists. split; [exact N|]. clear N HF.
  set (M := beam_dstrain n vk b D q k (to_local t U0)).
  assert (G : forall (U : R -> dofs) dU (t0 : R), U t0 = U0 -> history6 n t0 U dU ->
      is_derive (fun s : R => beam_e vk b n D q k (in_axes t (U s))) t0 (dot6 n (to_global t (M 0%nat)) dU) /\
      is_derive (fun s : R => beam_s vk b n D q k (in_axes t (U s))) t0 (dot6 n (to_global t (mm 2 (b_C D q) M 0%nat)) dU)).
  { intros U dU t0 <- HU. pose proof (history_local n t U dU t0 HU) as HL.
    destruct (dstrain_eq n vk b Hf D q k (to_local t (U t0)) (to_local t dU) Hk) as [M0 M1]. fold M in M0, M1. split.
    - apply (der_fun (fun s => beam_e vk b n D q k (to_local t (U s)))); [intros; now rewrite in_axes_eq|].
      rewrite dot_global, dot_rows, M0. now apply (der_be n vk b Hf (fun s => to_local t (U s))).
    - apply (der_fun (fun s => beam_s vk b n D q k (to_local t (U s)))); [intros; now rewrite in_axes_eq|].
      rewrite dot_global, dot_row_mm. cbn [sum]. rewrite M0, M1.
      eapply der_eq; [exact (der_bs n vk b Hf (fun s => to_local t (U s)) (to_local t dU) t0 D q k Hk HL)|]. lra. }
  destruct p as [[[f D'] Us]|]; cbn [set_sensitivity set_derivatives d_dX d_stress d_strain d_w].
  - destruct (beam_dp n vk b D D' q k (to_local t U0) (to_local t Us)) as [s' e'].
    split; [reflexivity|]. split; [reflexivity|]. split; [reflexivity|]. split; [reflexivity|]. split; [|exact G].
    intros [|r] c a Hr; [lia|]. split; reflexivity.
  - split; [reflexivity|]. split; [reflexivity|]. split; [reflexivity|]. split; [reflexivity|]. split; [|exact G].
    intros [|r] c a Hr; [lia|]. split; reflexivity.
Qed.

(** the sensitivity stored for a parameter on which material, temperatures, expansion, dimensions of the section and
    solution depend is the total derivative *)
Theorem C160_sensitivity : forall n vk b t qs (D : R -> bdat) D' (U : R -> dofs) dU (t0 : R) req f st, fits b n ->
  length st = (4 * length qs)%nat -> history6 n t0 U dU -> (forall q, In q qs -> bdat_der D D' t0 q) -> exists st',
  beam_stress n vk b t qs (D t0) (U t0) req (Some (f, D', dU)) st = Ok (st', true) /\ length st' = length st /\
  forall i k q d, nth_error qs i = Some q -> (k < 4)%nat -> nth_error st (4 * i + k) = Some d ->
  exists d' s' e', nth_error st' (4 * i + k) = Some d' /\ stored f (d_sens d') = Some (s', e') /\
    (forall g, g <> f -> stored g (d_sens d') = stored g (d_sens d)) /\
    d_stress d' = d_stress d /\ d_strain d' = d_strain d /\ d_w d' = d_w d /\ (req = false -> d_dX d' = d_dX d) /\
    (forall r, (0 < r)%nat -> s' r = 0 /\ e' r = 0) /\
    is_derive (fun s : R => beam_e vk b n (D s) q k (in_axes t (U s))) t0 (e' 0%nat) /\
    is_derive (fun s : R => beam_s vk b n (D s) q k (in_axes t (U s))) t0 (s' 0%nat).
Proof.
  intros n vk b t qs D D' U dU t0 req f st Hf Hl HU HD.
  destruct (beam_change n vk b t qs (D t0) (U t0) req (Some (f, D', dU)) st) as (F & st' & E & L & N & HF); [right; discriminate|exact Hl|].
  exists st'. split; [exact E|]. split; [exact L|]. intros i k q d Hq Hk Hd. specialize (N i k q d Hq Hk Hd). rewrite HF in N. cbv zeta in N. clear HF.
  specialize (HD q (nth_error_In _ _ Hq)). pose proof (history_local n t U dU t0 HU) as HL.
  pose proof (der_be_D n vk b Hf t0 (fun s => to_local t (U s)) _ HL D D' q k Hk HD) as K1.
  pose proof (der_bs_D n vk b t0 (fun s => to_local t (U s)) _ HL D D' q k _ Hk (proj1 HD) K1) as K2.
  destruct (dp_eq n vk b Hf (D t0) D' q k (to_local t (U t0)) (to_local t dU) Hk) as [P1 P2].
  destruct (beam_dp n vk b (D t0) D' q k (to_local t (U t0)) (to_local t dU)) as [s' e']. cbn [fst snd] in P1, P2.
  eexists. exists (first (s' 0%nat)), (first (e' 0%nat)). split; [exact N|]. unfold set_sensitivity. cbn [d_sens d_stress d_strain d_w d_dX].
  split; [apply put_same|]. split; [intros g Hg; rewrite put_other by congruence; destruct req; reflexivity|].
  split; [destruct req; reflexivity|]. split; [destruct req; reflexivity|]. split; [destruct req; reflexivity|]. split; [intros ->; reflexivity|].
  split; [intros [|r] Hr; [lia|split; reflexivity]|]. cbn [first]. split.
  - apply (der_fun (fun s => beam_e vk b n (D s) q k (to_local t (U s)))); [intros; now rewrite in_axes_eq|]. rewrite P1. exact K1.
  - apply (der_fun (fun s => beam_s vk b n (D s) q k (to_local t (U s)))); [intros; now rewrite in_axes_eq|]. rewrite P2. exact K2.
Qed.

(** values are entered once; derivatives and sensitivities need the values *)
Theorem C160_order : forall n vk b t qs D U, qs <> [] ->
  (forall st, st <> [] -> beam_stress n vk b t qs D U false None st = Fault AssertFailed) /\
  (forall req p, req = true \/ p <> None -> beam_stress n vk b t qs D U req p [] = Fault AssertFailed).
Proof.
  intros n vk b t [|q qs] D U Hq; [congruence|]. split.
  - intros st Hs. unfold beam_stress.
    rewrite (add_again 4 (beam_data n vk b t D U) (beam_body n vk b t D U false None)) with (q := q); [reflexivity|reflexivity|reflexivity|lia|exact Hs].
  - intros req p Hp. unfold beam_stress.
    rewrite (change_missing 4 (fun q k d =>
      let u := to_local t U in
      let M := beam_dstrain n vk b D q k u in
      let d := if req then set_derivatives (first_row (to_global t (mm 2 (b_C D q) M 0%nat))) (first_row (to_global t (M 0%nat))) d else d in
      match p with
      | Some (f, D', Us) => let '(s', e') := beam_dp n vk b D D' q k u (to_local t Us) in
          set_sensitivity f (first (s' 0%nat)) (first (e' 0%nat)) d
      | None => d end) (beam_body n vk b t D U req p)) with (q := q); [reflexivity| |reflexivity|lia].
    intros qp x k s. unfold beam_body. destruct req, p as [p|]; try reflexivity. destruct Hp as [H|H]; congruence.
Qed.

(** a beam free to expand has no stress *)
Theorem C160_free_expansion : forall n vk b t qs D h U st, fits b n -> b_heat D = Some h ->
  (forall q, In q qs -> b_C D q 0%nat 1%nat = 0 /\ axial (vk && bends b) n q (in_axes t U) = h_alpha h q * (h_T h q - h_ref h q) /\
     curv_y b n q (in_axes t U) = 0 /\ curv_z b n q (in_axes t U) = 0) ->
  beam_stress n vk b t qs D U false None [] = Ok (st, false) ->
  forall i k d, (i < length qs)%nat -> (k < 4)%nat -> nth_error st (4 * i + k) = Some d -> forall r, d_stress d r = 0.
Proof.
  intros n vk b t qs D h U st Hf Hh Hq E i k d Hi Hk Hd r.
  destruct (C160_value n vk b t qs D U Hf) as (st' & E' & _ & V). rewrite E in E'. injection E' as <-.
  destruct (nth_error qs i) as [q|] eqn:Eq; [|apply nth_error_None in Eq; lia].
  destruct (V i k q Eq Hk) as (d' & Hd' & _ & S & Z & _). rewrite Hd in Hd'. injection Hd' as <-.
  destruct r as [|r]; [|apply Z; lia]. rewrite S. unfold beam_s, beam_e. destruct (Hq q (nth_error_In _ _ Eq)) as (C1 & A & K1 & K2).
  rewrite C1, A, K1, K2, Hh. cbn [free_strain]. ring.
Qed.

(** the weights of the points add up to four times the length of the element *)
Theorem C160_weight_partial : forall n vk b t qs D U st, beam_stress n vk b t qs D U false None [] = Ok (st, false) ->
  weight st = 4 * integral qs (fun _ => 1).
Proof.
  intros n vk b t qs D U st E. rewrite beam_values in E. injection E as <-. unfold weight.
  induction qs as [|q qs IH]; [rewrite integral_nil; cbn; ring|].
  rewrite integral_cons. cbn [flat_map seq map app fold_right]. cbn [seq map] in IH. rewrite IH.
  unfold beam_data. cbn [d_w]. ring.
Qed.
Definition steel : bdat := mkBd (fun _ i l => if Nat.eqb i l then 2 else 0) (Some (mkH (fun _ => 3) (fun _ => 1) (fun _ => 1))) (fun _ => 2) (fun _ => 4) (fun _ => 1) (fun _ => 0).
Theorem C160_weight_refuted : exists n vk b t qs D U st, fits b n /\
  beam_stress n vk b t qs D U false None [] = Ok (st, false) /\ weight st <> integral qs (fun _ => 1).
Proof.
  exists 2%nat, true, (BERNOULLI 1 (fun _ => 0)), None, [q0 1], steel, (fun _ _ => 0). eexists. split; [split; [reflexivity|lra]|].
  split; [apply beam_values|]. rewrite (C160_weight_partial 2 true (BERNOULLI 1 (fun _ => 0)) None [q0 1] steel (fun _ _ => 0)) by apply beam_values.
  rewrite integral_cons, integral_nil. cbn [q0 jxw]. intros E; lra.
Qed.

(** cases *)
Example C160_example : fits (BERNOULLI 1 (fun _ => 0)) 2 /\ (exists st, beam_stress 2 true (BERNOULLI 1 (fun _ => 0)) None [q0 1] steel (ramp 0 1 5) false None [] = Ok (st, false) /\
  length st = 4%nat /\ exists d, nth_error st 3 = Some d /\ d_strain d 0%nat = 3 /\ d_stress d 0%nat = 6).
Proof.
  assert (F : fits (BERNOULLI 1 (fun _ => 0)) 2) by (split; [reflexivity|lra]). split; [exact F|].
  destruct (C160_value 2 true _ None [q0 1] steel (ramp 0 1 5) F) as (st & E & L & V). exists st. split; [exact E|]. split; [exact L|].
  destruct (V 0%nat 3%nat (q0 1) eq_refl ltac:(lia)) as (d & Hd & He & Hs & _). exists d. split; [exact Hd|].
  rewrite He, Hs. unfold beam_s, beam_e, corner_y, corner_z, axial, twist, curv_y, curv_z, hermite'', cubic'', dx, ramp. cbn. split; field.
Qed.
Example C160_example_der : history6 2 1 (ramp 1 1) (unit_dof 1 1) /\ bdat_der (fun s => mkBd (fun _ i l => if Nat.eqb i l then 2 * s else 0) (Some (mkH (fun _ => 3) (fun _ => s) (fun _ => 1))) (fun _ => 2) (fun _ => 4 * s) (fun _ => 1) (fun _ => 0))
  (mkBd (fun _ i l => if Nat.eqb i l then 2 else 0) (Some (mkH (fun _ => 0) (fun _ => 1) (fun _ => 0))) (fun _ => 0) (fun _ => 4) (fun _ => 0) (fun _ => 0)) 1 (q0 1) /\
  (exists st, beam_stress 2 true (BERNOULLI 1 (fun _ => 0)) None [q0 1] steel (ramp 1 1 1) false None [] = Ok (st, false) /\ length st = (4 * length [q0 1])%nat).
Proof.
  split; [apply ramp_history|]. split.
  - unfold bdat_der. cbn [b_C b_heat b_hy b_hz b_hy_off b_hz_off]. split.
    + intros i l _ _. destruct (Nat.eqb i l); [auto_derive; [exact I|lra]|apply der_const].
    + split.
      * right. exists (fun s => mkH (fun _ => 3) (fun _ => s) (fun _ => 1)), (mkH (fun _ => 0) (fun _ => 1) (fun _ => 0)). cbn. split; [reflexivity|]. split; [reflexivity|].
        split; [apply der_const|]. split; [apply (@is_derive_id R_AbsRing)|apply der_const].
      * split; [apply der_const|]. split; [auto_derive; [exact I|lra]|]. split; apply der_const.
  - eexists. split; [apply beam_values|]. reflexivity.
Qed.
Example C160_example_free : exists h U, b_heat steel = Some h /\ forall q, In q [q0 1] -> b_C steel q 0%nat 1%nat = 0 /\
  axial (true && bends (BERNOULLI 1 (fun _ => 0))) 2 q (in_axes None U) = h_alpha h q * (h_T h q - h_ref h q) /\
  curv_y (BERNOULLI 1 (fun _ => 0)) 2 q (in_axes None U) = 0 /\ curv_z (BERNOULLI 1 (fun _ => 0)) 2 q (in_axes None U) = 0.
Proof.
  eexists. exists (ramp 0 1 2). split; [reflexivity|]. intros q [<-|[]]. unfold axial, curv_y, curv_z, hermite'', cubic'', dx, ramp. cbn. repeat split; field.
Qed.

Print Assumptions C160_value.
Print Assumptions C160_derivative.
Print Assumptions C160_sensitivity.
Print Assumptions C160_order.
Print Assumptions C160_free_expansion.
Print Assumptions C160_weight_partial.
Print Assumptions C160_weight_refuted.
