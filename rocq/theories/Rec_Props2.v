(** C161: stress and strain of a plate at its skins; C162: contributions of moving sides and of the temperature *)
From Coq Require Import Reals Lra.
From Coquelicot Require Import Coquelicot.
From Coq Require Import List Arith Bool Lia.
From Verif Require Import Base BaseLemmas Sens_Spec Sens_Proofs Sens_Proofs2 Heat_Proofs Solid_Model Solid_Spec Solid_Proofs2 Dof6_Model Beam_Model Beam_Spec
  Dof6_Proofs Beam_Proofs Beam_Proofs2 Beam_Props Plate_Model Plate_Spec Plate_Proofs Plate_Proofs2 Plate_Props Rec_Model Rec_Spec Rec_Proofs Rec_Proofs2 Rec_Proofs3 Rec_Props.
Import ListNotations.
Open Scope R_scope.

Definition plate_data n nl b t D U q k : pdata :=
  let e := plate_strain n nl b D q k (to_local t U) in mkD (plane6 (mv 3 (p_C D q) e)) (plane6 e) (jxw q / (1 * 2)) None [].
Lemma plate_values n nl b t qs D U : plate_stress n nl b t qs D U false None [] =
  Ok (flat_map (fun q => map (plate_data n nl b t D U q) (seq 0 2)) qs, false).
Proof.
  unfold plate_stress. rewrite (add_loop 2 (plate_data n nl b t D U) (plate_body n nl b t D U false None)).
  - cbn [bind]. rewrite app_nil_l, added_length, Nat.eqb_refl. reflexivity.
  - reflexivity.
  - intros; split; reflexivity.
  - reflexivity.
Qed.
Lemma plane_eq v w : (forall r, (r < 3)%nat -> v r = w r) -> forall r, plane6 v r = component6 w r.
Proof. intros H r. unfold plane6, component6, in_plane. destruct r as [|[|[|[|r]]]]; try reflexivity; apply H; lia. Qed.
Lemma plane_inv r i : in_plane r = Some i -> (i < 3)%nat /\ forall v : nat -> dofs, plane_rows v r = v i.
Proof. destruct r as [|[|[|[|r]]]]; cbn; intros E; try discriminate; injection E as <-; split; auto. Qed.
Lemma plane_out r : in_plane r = None -> forall v : nat -> dofs, plane_rows v r = zf.
Proof. destruct r as [|[|[|[|r]]]]; cbn; intros E; try discriminate; reflexivity. Qed.

(** strain without the free thermal strain, and stress, at the upper and the lower skin of every quadrature point *)
Theorem C161_value : forall n nl b t qs D U, pfits b n -> exists st,
  plate_stress n nl b t qs D U false None [] = Ok (st, false) /\ length st = (2 * length qs)%nat /\
  forall i k q, nth_error qs i = Some q -> (k < 2)%nat -> exists d, nth_error st (2 * i + k) = Some d /\
    (forall r, d_strain d r = component6 (plate_e nl b n D q k (in_axes t U)) r /\
               d_stress d r = component6 (plate_s nl b n D q k (in_axes t U)) r) /\ d_w d = jxw q / 2.
Proof.
  intros n nl b t qs D U Hf. rewrite in_axes_eq. eexists. split; [apply plate_values|]. split.
  - rewrite added_length. lia.
  - intros i k q Hq Hk. exists (plate_data n nl b t D U q k). split; [now apply added_nth|].
    unfold plate_data. cbv zeta. cbn [d_strain d_stress d_w]. split; [|lra].
    intros r. split; apply plane_eq; intros x Hx.
    + now apply pstrain_eq.
    + now apply pstress_eq.
Qed.

Definition plate_step n nl b t D U (req : bool) (p : option (nat * pdat * dofs)) (q : qpt) (k : nat) (d : pdata) : pdata :=
  let u := to_local t U in
  let M := plate_dstrain n nl b D q k u in
  let G := fun (M : rmat) (r : nat) => to_global t (M r) in
  let d := if req then set_derivatives (plane_rows (G (mm 3 (p_C D q) M))) (plane_rows (G M)) d else d in
  match p with
  | Some (f, D', Us) => let '(s', e') := plate_dp n nl b D D' q k u (to_local t Us) in set_sensitivity f (plane6 s') (plane6 e') d
  | None => d end.
Lemma plate_body_step n nl b t D U req p : (req = true \/ p <> None) -> forall qp q k s, plate_body n nl b t D U req p qp q k s = change qp (plate_step n nl b t D U req p q k) s.
Proof. intros Hp qp q k s. unfold plate_body, plate_step. destruct req, p as [p|]; try reflexivity. destruct Hp as [H|H]; congruence. Qed.
Lemma plate_change n nl b t qs D U req p st : (req = true \/ p <> None) -> length st = (2 * length qs)%nat -> exists st',
  plate_stress n nl b t qs D U req p st = Ok (st', true) /\ length st' = length st /\
  (forall i k q d, nth_error qs i = Some q -> (k < 2)%nat -> nth_error st (2 * i + k) = Some d -> nth_error st' (2 * i + k) = Some (plate_step n nl b t D U req p q k d)).
Proof.
  intros Hp Hl.
  destruct (change_loop 2 (plate_step n nl b t D U req p) (plate_body n nl b t D U req p)) with (qs := qs) (i := 0%nat) (st := st) as (st' & E & L & N & _).
  - now apply plate_body_step.
  - lia.
  - exists st'. split; [|split; [exact L|]].
    + unfold plate_stress. rewrite E. cbn [bind]. rewrite L, Hl. replace (length qs * 2)%nat with (2 * length qs)%nat by lia.
      rewrite Nat.eqb_refl. destruct req, p as [p|]; try reflexivity. destruct Hp as [H|H]; congruence.
    + intros i k q d Hq Hk Hd. specialize (N i q k Hq Hk). cbn [Nat.add] in N. rewrite N, Hd. reflexivity.
Qed.

(** the derivatives stored for a solution are those of stress and strain, in global axes *)
Theorem C161_derivative : forall n nl b t qs D U0 p st, pfits b n -> length st = (2 * length qs)%nat -> exists st',
  plate_stress n nl b t qs D U0 true p st = Ok (st', true) /\ length st' = length st /\
  forall i k q d, nth_error qs i = Some q -> (k < 2)%nat -> nth_error st (2 * i + k) = Some d ->
  exists d' ds de, nth_error st' (2 * i + k) = Some d' /\ d_dX d' = Some (ds, de) /\
    d_stress d' = d_stress d /\ d_strain d' = d_strain d /\ d_w d' = d_w d /\
    forall r, match in_plane r with
      | None => forall c a, ds r c a = 0 /\ de r c a = 0
      | Some x => forall (U : R -> dofs) dU (t0 : R), U t0 = U0 -> history6 n t0 U dU ->
          is_derive (fun s : R => plate_e nl b n D q k (in_axes t (U s)) x) t0 (dot6 n (de r) dU) /\
          is_derive (fun s : R => plate_s nl b n D q k (in_axes t (U s)) x) t0 (dot6 n (ds r) dU) end.
Proof.
  intros n nl b t qs D U0 p st Hf Hl.
  destruct (plate_change n nl b t qs D U0 true p st) as (st' & E & L & N); [now left|exact Hl|].
  exists st'. split; [exact E|]. split; [exact L|]. intros i k q d Hq Hk Hd. specialize (N i k q d Hq Hk Hd). unfold plate_step in N. cbv zeta in N.
  eexists. eexists. eexists. split; [exact N|]. clear N.
  set (M := plate_dstrain n nl b D q k (to_local t U0)).
  assert (G : forall r, match in_plane r with
      | None => forall c a, plane_rows (fun r => to_global t (mm 3 (p_C D q) M r)) r c a = 0 /\ plane_rows (fun r => to_global t (M r)) r c a = 0
      | Some x => forall (U : R -> dofs) dU (t0 : R), U t0 = U0 -> history6 n t0 U dU ->
          is_derive (fun s : R => plate_e nl b n D q k (in_axes t (U s)) x) t0 (dot6 n (plane_rows (fun r => to_global t (M r)) r) dU) /\
          is_derive (fun s : R => plate_s nl b n D q k (in_axes t (U s)) x) t0 (dot6 n (plane_rows (fun r => to_global t (mm 3 (p_C D q) M r)) r) dU) end).
  { intros r. destruct (in_plane r) as [x|] eqn:Er.
    - destruct (plane_inv r x Er) as [Hx Hr]. rewrite !Hr. intros U dU t0 <- HU. pose proof (history_local n t U dU t0 HU) as HL. split.
      + apply (der_fun (fun s => plate_e nl b n D q k (to_local t (U s)) x)); [intros; now rewrite in_axes_eq|].
        rewrite dot_global, dot_rows. unfold M. rewrite (pdstrain_eq n nl b Hf D q k) by assumption.
        exact (der_pe n nl b Hf (fun s => to_local t (U s)) (to_local t dU) t0 D q k x Hk HL).
      + apply (der_fun (fun s => plate_s nl b n D q k (to_local t (U s)) x)); [intros; now rewrite in_axes_eq|].
        rewrite dot_global, dot_row_mm. eapply der_eq; [exact (der_ps n nl b Hf (fun s => to_local t (U s)) (to_local t dU) t0 D q k x Hk Hx HL)|].
        apply sum_ext. intros j Hj. unfold M. now rewrite (pdstrain_eq n nl b Hf D q k).
    - intros c a. rewrite !(plane_out r Er). split; reflexivity. }
  destruct p as [[[f D'] Us]|]; cbn [set_sensitivity set_derivatives d_dX d_stress d_strain d_w].
  - destruct (plate_dp n nl b D D' q k (to_local t U0) (to_local t Us)) as [s' e'].
    split; [reflexivity|]. split; [reflexivity|]. split; [reflexivity|]. split; [reflexivity|]. exact G.
  - split; [reflexivity|]. split; [reflexivity|]. split; [reflexivity|]. split; [reflexivity|]. exact G.
Qed.

(** the sensitivity stored for a parameter is the total derivative *)
Theorem C161_sensitivity : forall n nl b t qs (D : R -> pdat) D' (U : R -> dofs) dU (t0 : R) req f st, pfits b n ->
  length st = (2 * length qs)%nat -> history6 n t0 U dU -> (forall q, In q qs -> pdat_der D D' t0 q) -> exists st',
  plate_stress n nl b t qs (D t0) (U t0) req (Some (f, D', dU)) st = Ok (st', true) /\ length st' = length st /\
  forall i k q d, nth_error qs i = Some q -> (k < 2)%nat -> nth_error st (2 * i + k) = Some d ->
  exists d' s' e', nth_error st' (2 * i + k) = Some d' /\ stored f (d_sens d') = Some (s', e') /\
    (forall g, g <> f -> stored g (d_sens d') = stored g (d_sens d)) /\
    d_stress d' = d_stress d /\ d_strain d' = d_strain d /\ d_w d' = d_w d /\ (req = false -> d_dX d' = d_dX d) /\
    forall r : nat, is_derive (fun s : R => component6 (plate_e nl b n (D s) q k (in_axes t (U s))) r) t0 (e' r) /\
      is_derive (fun s : R => component6 (plate_s nl b n (D s) q k (in_axes t (U s))) r) t0 (s' r).
Proof.
  intros n nl b t qs D D' U dU t0 req f st Hf Hl HU HD.
  destruct (plate_change n nl b t qs (D t0) (U t0) req (Some (f, D', dU)) st) as (st' & E & L & N); [right; discriminate|exact Hl|].
  exists st'. split; [exact E|]. split; [exact L|]. intros i k q d Hq Hk Hd. specialize (N i k q d Hq Hk Hd). unfold plate_step in N. cbv zeta in N.
  specialize (HD q (nth_error_In _ _ Hq)). pose proof (history_local n t U dU t0 HU) as HL.
  pose proof (fun r => der_pe_D n nl b Hf t0 (fun s => to_local t (U s)) _ HL D D' q k r Hk HD) as K1.
  pose proof (fun r Hr => der_ps_D n nl b t0 (fun s => to_local t (U s)) D D' q k r _ Hk Hr (proj1 HD) (fun i _ => K1 i)) as K2.
  pose proof (fun r Hr => pdp_eq n nl b Hf (D t0) D' q k (to_local t (U t0)) (to_local t dU) r Hk Hr) as P.
  destruct (plate_dp n nl b (D t0) D' q k (to_local t (U t0)) (to_local t dU)) as [s' e']. cbn [fst snd] in P.
  eexists. exists (plane6 s'), (plane6 e'). split; [exact N|]. unfold set_sensitivity. cbn [d_sens d_stress d_strain d_w d_dX].
  split; [apply put_same|]. split; [intros g Hg; rewrite put_other by congruence; destruct req; reflexivity|].
  split; [destruct req; reflexivity|]. split; [destruct req; reflexivity|]. split; [destruct req; reflexivity|]. split; [intros ->; reflexivity|].
  assert (K1' : forall x, (x < 3)%nat -> is_derive (fun s => plate_e nl b n (D s) q k (in_axes t (U s)) x) t0 (e' x)).
  { intros x Hx. apply (der_fun (fun s => plate_e nl b n (D s) q k (to_local t (U s)) x)); [intros; now rewrite in_axes_eq|].
    rewrite (proj1 (P x Hx)). apply K1. }
  assert (K2' : forall x, (x < 3)%nat -> is_derive (fun s => plate_s nl b n (D s) q k (in_axes t (U s)) x) t0 (s' x)).
  { intros x Hx. apply (der_fun (fun s => plate_s nl b n (D s) q k (to_local t (U s)) x)); [intros; now rewrite in_axes_eq|].
    rewrite (proj2 (P x Hx)). now apply K2. }
  intros r. unfold component6, plane6. destruct r as [|[|[|[|r]]]]; cbn [in_plane]; (split; [first [apply K1'; lia|apply der_const]|first [apply K2'; lia|apply der_const]]).
Qed.

Theorem C161_order : forall n nl b t qs D U, qs <> [] ->
  (forall st, st <> [] -> plate_stress n nl b t qs D U false None st = Fault AssertFailed) /\
  (forall req p, req = true \/ p <> None -> plate_stress n nl b t qs D U req p [] = Fault AssertFailed).
Proof.
  intros n nl b t [|q qs] D U Hq; [congruence|]. split.
  - intros st Hs. unfold plate_stress.
    rewrite (add_again 2 (plate_data n nl b t D U) (plate_body n nl b t D U false None)) with (q := q); [reflexivity|reflexivity|reflexivity|lia|exact Hs].
  - intros req p Hp. unfold plate_stress.
    rewrite (change_missing 2 (plate_step n nl b t D U req p) (plate_body n nl b t D U req p)) with (q := q); [reflexivity|now apply plate_body_step|reflexivity|lia].
Qed.

(** a plate free to expand has no stress *)
Theorem C161_free_expansion : forall n nl b t qs D h U st, pfits b n -> p_heat D = Some h ->
  (forall q r, In q qs -> (r < 3)%nat -> membrane nl (nl && pbends b) n q (in_axes t U) r = (if Nat.ltb r 2 then h_alpha h q * (h_T h q - h_ref h q) else 0) /\
     curvature b n q (in_axes t U) r = 0) ->
  plate_stress n nl b t qs D U false None [] = Ok (st, false) ->
  forall i k d, (i < length qs)%nat -> (k < 2)%nat -> nth_error st (2 * i + k) = Some d -> forall r, d_stress d r = 0.
Proof.
  intros n nl b t qs D h U st Hf Hh Hq E i k d Hi Hk Hd r.
  destruct (C161_value n nl b t qs D U Hf) as (st' & E' & _ & V). rewrite E in E'. injection E' as <-.
  destruct (nth_error qs i) as [q|] eqn:Eq; [|apply nth_error_None in Eq; lia].
  destruct (V i k q Eq Hk) as (d' & Hd' & S & _). rewrite Hd in Hd'. injection Hd' as <-. rewrite (proj2 (S r)).
  unfold component6. destruct (in_plane r) as [x|]; [|reflexivity]. unfold plate_s. apply sum_0. intros y Hy.
  destruct (Hq q y (nth_error_In _ _ Eq) Hy) as (A & K). unfold plate_e. rewrite A, K, Hh. cbn [free_strain]. ring.
Qed.

(** the weights add up to the area of the element *)
Theorem C161_weight : forall n nl b t qs D U st, plate_stress n nl b t qs D U false None [] = Ok (st, false) -> weight st = integral qs (fun _ => 1).
Proof.
  intros n nl b t qs D U st E. rewrite plate_values in E. injection E as <-. unfold weight.
  induction qs as [|q qs IH]; [rewrite integral_nil; reflexivity|].
  rewrite integral_cons. cbn [flat_map seq map app fold_right]. cbn [seq map] in IH. rewrite IH.
  unfold plate_data. cbn [d_w]. lra.
Qed.

(** *** C162 *)
Lemma side_values n nl b t qs D U vel nv : side_stress n nl b t qs D U vel nv [] =
  Ok (flat_map (fun q => map (fun k => let e := plate_strain n nl b D q k (to_local t U) in
     mkD (plane6 (mv 3 (p_C D q) e)) (plane6 e) (jxw q * (side_vn vel nv q / (1 * 2))) None []) (seq 0 2)) qs).
Proof.
  unfold side_stress. rewrite (add_loop 2 (fun q k => let e := plate_strain n nl b D q k (to_local t U) in
     mkD (plane6 (mv 3 (p_C D q) e)) (plane6 e) (jxw q * (side_vn vel nv q / (1 * 2))) None []) (side_body n nl b t D U vel nv)).
  - cbn [bind]. rewrite app_nil_l, added_length, Nat.eqb_refl. reflexivity.
  - reflexivity.
  - intros; split; reflexivity.
  - reflexivity.
Qed.
(** a moving side: strain and stress at the points of the side; the weight is half the rate at which the area grows *)
Theorem C162_moving_side : forall n nl b t qs D U vel nv, pfits b n -> exists st,
  side_stress n nl b t qs D U vel nv [] = Ok st /\ length st = (2 * length qs)%nat /\
  weight st = integral qs (fun q => vel q 0%nat * nv q 0%nat + vel q 1%nat * nv q 1%nat) /\
  forall i k q, nth_error qs i = Some q -> (k < 2)%nat -> exists d, nth_error st (2 * i + k) = Some d /\
    (forall r, d_strain d r = component6 (plate_e nl b n D q k (in_axes t U)) r /\
               d_stress d r = component6 (plate_s nl b n D q k (in_axes t U)) r) /\
    d_w d = jxw q * (vel q 0%nat * nv q 0%nat + vel q 1%nat * nv q 1%nat) / 2.
Proof.
  intros n nl b t qs D U vel nv Hf. rewrite in_axes_eq. eexists. split; [apply side_values|]. split; [rewrite added_length; lia|]. split.
  - unfold weight. clear Hf. induction qs as [|q qs IH]; [rewrite integral_nil; reflexivity|].
    rewrite integral_cons. cbn [flat_map seq map app fold_right]. cbn [seq map] in IH. rewrite IH. cbv zeta. cbn [d_w].
    unfold side_vn. cbn [sum]. field.
  - intros i k q Hq Hk. eexists. split; [apply added_nth; eassumption|]. cbv zeta. cbn [d_strain d_stress d_w]. split.
    + intros r. split; apply plane_eq; intros x Hx; [now apply pstrain_eq|now apply pstress_eq].
    + unfold side_vn. cbn [sum]. field.
Qed.
(** a second moving side of the same element is refused *)
Theorem C162_second_side : forall n nl b t qs D U vel nv st, qs <> [] -> st <> [] -> side_stress n nl b t qs D U vel nv st = Fault AssertFailed.
Proof.
  intros n nl b t [|q qs] D U vel nv st Hq Hs; [congruence|]. unfold side_stress.
  rewrite (add_again 2 (fun q k => let e := plate_strain n nl b D q k (to_local t U) in
     mkD (plane6 (mv 3 (p_C D q) e)) (plane6 e) (jxw q * (side_vn vel nv q / (1 * 2))) None []) (side_body n nl b t D U vel nv)) with (q := q);
    [reflexivity|reflexivity|reflexivity|lia|exact Hs].
Qed.
Definition skinD : pdat := mkPd (fun _ i l => if Nat.eqb i l then 2 else 0) (Some (mkH (fun _ => 3) (fun _ => 1) (fun _ => 1))) (fun _ => 2) (fun _ => 1).
Theorem C162_two_sides_refuted : exists n nl b t q1 q2 D U vel nv st, pfits b n /\
  side_stress n nl b t [q1] D U vel nv [] = Ok st /\ side_stress n nl b t [q2] D U vel nv st = Fault AssertFailed.
Proof.
  exists 2%nat, true, MINDLIN, None, p0, p0, skinD, (fun _ _ => 0), (fun _ _ => 1), (fun _ _ => 1). eexists. split; [exact I|]. split; [apply side_values|].
  apply C162_second_side; discriminate.
Qed.

(** the temperature as unknown: values at nt nodes *)
Definition with_temperature (nt : nat) (D : pdat) (h : heat) (th : nat -> R) : pdat :=
  mkPd (p_C D) (Some (mkH (fun q => sum nt (fun a => phi q a * th a)) (h_ref h) (h_alpha h))) (p_h D) (p_off D).
Lemma heat_change qs D h st : p_heat D = Some h -> length st = (2 * length qs)%nat -> exists st',
  heat_derivative true qs D st = Ok st' /\ length st' = length st /\
  (forall i k q d, nth_error qs i = Some q -> (k < 2)%nat -> nth_error st (2 * i + k) = Some d -> nth_error st' (2 * i + k) = Some
    (set_derivatives (plane_rows (fun r c a => match c with O => - (sum 3 (fun i => h_alpha h q * p_C D q r i * (match i with 0%nat | 1%nat => 1 | _ => 0 end)) * phi q a) | _ => 0 end)) (fun _ => zf) d)).
Proof.
  intros Hh Hl. unfold heat_derivative. rewrite Hh.
  destruct (change_loop 2 (fun q k => set_derivatives (plane_rows (fun r c a => match c with O => - (sum 3 (fun i => h_alpha h q * p_C D q r i * (match i with 0%nat | 1%nat => 1 | _ => 0 end)) * phi q a) | _ => 0 end)) (fun _ => zf)) (heat_body D (h_alpha h))) with (qs := qs) (i := 0%nat) (st := st) as (st' & E & L & N & _).
  - reflexivity.
  - lia.
  - exists st'. split; [exact E|]. split; [exact L|]. intros i k q d Hq Hk Hd. specialize (N i q k Hq Hk). cbn [Nat.add] in N. rewrite N, Hd. reflexivity.
Qed.
Theorem C162_temperature_partial : forall n nl b nt qs D h u st, p_heat D = Some h -> length st = (2 * length qs)%nat -> exists st',
  heat_derivative true qs D st = Ok st' /\ length st' = length st /\
  forall i k q d, nth_error qs i = Some q -> (k < 2)%nat -> nth_error st (2 * i + k) = Some d ->
  exists d' ds de, nth_error st' (2 * i + k) = Some d' /\ d_dX d' = Some (ds, de) /\ d_stress d' = d_stress d /\ d_strain d' = d_strain d /\ d_w d' = d_w d /\
    forall (th : R -> nat -> R) dth (t0 : R) (r : nat), (forall a, (a < nt)%nat -> is_derive (fun s => th s a) t0 (dth a)) ->
      is_derive (fun s : R => component6 (plate_s nl b n (with_temperature nt D h (th s)) q k u) r) t0 (sum nt (fun a => ds r 0%nat a * dth a)).
Proof.
  intros n nl b nt qs D h u st Hh Hl. destruct (heat_change qs D h st Hh Hl) as (st' & E & L & N). exists st'. split; [exact E|]. split; [exact L|].
  intros i k q d Hq Hk Hd. specialize (N i k q d Hq Hk Hd). eexists. eexists. eexists. split; [exact N|].
  cbn [set_derivatives d_dX d_stress d_strain d_w]. split; [reflexivity|]. split; [reflexivity|]. split; [reflexivity|]. split; [reflexivity|].
  intros th dth t0 r Hth.
  assert (HT : is_derive (fun s => sum nt (fun a => phi q a * th s a)) t0 (sum nt (fun a => phi q a * dth a))).
  { apply (der_sum nt (fun a s => phi q a * th s a)). intros a Ha. apply der_scal. now apply Hth. }
  assert (K : forall x, (x < 3)%nat -> is_derive (fun s => plate_s nl b n (with_temperature nt D h (th s)) q k u x) t0
     (sum nt (fun a => - (sum 3 (fun i => h_alpha h q * p_C D q x i * (match i with 0%nat | 1%nat => 1 | _ => 0 end)) * phi q a) * dth a))).
  { intros x Hx. set (T0 := fun i => membrane nl (nl && pbends b) n q u i + height D q k * curvature b n q u i).
    apply (der_fun (fun s => sum 3 (fun i => p_C D q x i * T0 i) - sum 3 (fun i => h_alpha h q * p_C D q x i * (match i with 0%nat | 1%nat => 1 | _ => 0 end)) * (sum nt (fun a => phi q a * th s a) - h_ref h q))).
    { intros s. unfold plate_s, plate_e, T0, free_strain. cbn. change (height (with_temperature nt D h (th s)) q k) with (height D q k). ring. }
    set (A := sum 3 (fun i => h_alpha h q * p_C D q x i * (match i with 0%nat | 1%nat => 1 | _ => 0 end))).
    apply (der_eq _ _ (- (A * sum nt (fun a => phi q a * dth a)))).
    - set (C0 := sum 3 (fun i => p_C D q x i * T0 i)).
      apply (der_fun (fun s => (C0 + A * h_ref h q) + (- A) * sum nt (fun a => phi q a * th s a))); [intros; ring|].
      eapply (der_add t0 (fun _ => C0 + A * h_ref h q) (fun s => (- A) * sum nt (fun a => phi q a * th s a)) 0 (- A * sum nt (fun a => phi q a * dth a))); [apply der_const| |ring].
      eapply der_sc; [exact HT|reflexivity].
    - rewrite <- sum_scal_l, <- sum_opp. apply sum_ext. intros a _. ring. }
  unfold component6, plane_rows. destruct r as [|[|[|[|r]]]]; cbn [in_plane]; try (apply K; lia).
  - apply (der_eq _ _ 0); [apply der_const|]. symmetry. apply sum_0. intros a _. unfold zf. ring.
  - apply (der_eq _ _ 0); [apply der_const|]. symmetry. apply sum_0. intros a _. unfold zf. ring.
Qed.
(** the strain depends on the temperature too, but its derivative is entered as zero *)
Theorem C162_temperature_refuted : exists n nl b nt q D h u st st' d' ds de (th : R -> nat -> R) dth (t0 : R) r, p_heat D = Some h /\
  plate_stress n nl b None [q] D u false None [] = Ok (st, false) /\ heat_derivative true [q] D st = Ok st' /\
  nth_error st' 0 = Some d' /\ d_dX d' = Some (ds, de) /\ (forall a, (a < nt)%nat -> is_derive (fun s => th s a) t0 (dth a)) /\
  ~ is_derive (fun s : R => component6 (plate_e nl b n (with_temperature nt D h (th s)) q 0 u) r) t0 (sum nt (fun a => de r 0%nat a * dth a)).
Proof.
  destruct (heat_change [p0] skinD (mkH (fun _ => 3) (fun _ => 1) (fun _ => 1)) (flat_map (fun q => map (plate_data 2 true MINDLIN None skinD (fun _ _ => 0) q) (seq 0 2)) [p0]) eq_refl) as (st' & E & L & N).
  { rewrite added_length. reflexivity. }
  exists 2%nat, true, MINDLIN, 2%nat, p0, skinD, (mkH (fun _ => 3) (fun _ => 1) (fun _ => 1)), (fun _ _ => 0). eexists. exists st'. eexists. eexists. eexists.
  exists (fun s a => s), (fun _ => 1), 0, 0%nat. split; [reflexivity|]. split; [apply plate_values|]. split; [exact E|].
  split; [apply (N 0%nat 0%nat p0); [reflexivity|lia|reflexivity]|]. split; [reflexivity|]. split; [intros a _; apply (@is_derive_id R_AbsRing)|].
  intros H.
  assert (K : is_derive (fun s : R => component6 (plate_e true MINDLIN 2 (with_temperature 2 skinD (mkH (fun _ => 3) (fun _ => 1) (fun _ => 1)) (fun _ => s)) p0 0 (fun _ _ => 0)) 0) 0 (-1)).
  { apply (der_fun (fun s => 1 - s)).
    - intros s. unfold component6, plate_e, membrane, curvature, beta_grad, node_beta, grad, height, with_temperature, flag. cbn. field.
    - auto_derive; [exact I|lra]. }
  pose proof (eq_trans (eq_sym (is_derive_unique _ _ _ H)) (is_derive_unique _ _ _ K)) as X. cbn [sum zf] in X. unfold zf in X. lra.
Qed.
(** finite elements that do not match, or no thermal load *)
Theorem C162_refused : forall qs D st, heat_derivative false qs D st = Fault AssertFailed /\
  (p_heat D = None -> forall same, heat_derivative same qs D st = Fault AssertFailed).
Proof. intros qs D st. split; [reflexivity|]. intros H same. unfold heat_derivative. rewrite H. destruct same; reflexivity. Qed.

(** cases *)
Example C161_example : pfits MINDLIN 2 /\ exists st, plate_stress 2 true MINDLIN None [p0] skinD (hold 0 1 4 (fun _ _ => 0)) false None [] = Ok (st, false) /\
  length st = (2 * length [p0])%nat /\ exists d, nth_error st 1 = Some d /\ d_strain d 0%nat = 10 /\ d_stress d 0%nat = 20 /\ d_stress d 1%nat = -4.
Proof.
  split; [exact I|]. destruct (C161_value 2 true MINDLIN None [p0] skinD (hold 0 1 4 (fun _ _ => 0)) I) as (st & E & L & V). exists st. split; [exact E|]. split; [exact L|].
  destruct (V 0%nat 1%nat p0 eq_refl ltac:(lia)) as (d & Hd & He & _). exists d. split; [exact Hd|].
  rewrite (proj1 (He 0%nat)), (proj2 (He 0%nat)), (proj2 (He 1%nat)). unfold component6, plate_s, plate_e, membrane, curvature, beta_grad, node_beta, grad, height, flag, hold. cbn.
  repeat split; field.
Qed.
Example C161_example_der : history6 2 1 (ramp 2 1) (unit_dof 2 1) /\ pdat_der (fun s => mkPd (fun _ i l => if Nat.eqb i l then 2 * s else 0) (Some (mkH (fun _ => 3) (fun _ => s) (fun _ => 1))) (fun _ => 4 * s) (fun _ => 1))
  (mkPd (fun _ i l => if Nat.eqb i l then 2 else 0) (Some (mkH (fun _ => 0) (fun _ => 1) (fun _ => 0))) (fun _ => 4) (fun _ => 0)) 1 p0.
Proof.
  split; [apply ramp_history|]. unfold pdat_der. cbn [p_C p_heat p_h p_off]. split.
  - intros i l _ _. destruct (Nat.eqb i l); [auto_derive; [exact I|lra]|apply der_const].
  - split.
    + right. exists (fun s => mkH (fun _ => 3) (fun _ => s) (fun _ => 1)), (mkH (fun _ => 0) (fun _ => 1) (fun _ => 0)). cbn. split; [reflexivity|]. split; [reflexivity|].
      split; [apply der_const|]. split; [apply (@is_derive_id R_AbsRing)|apply der_const].
    + split; [auto_derive; [exact I|lra]|apply der_const].
Qed.
Definition corner_q : qpt := mkQ 1 (fun _ => 0) (fun _ => 1/3) (fun a i => match a, i with 0%nat, _ => -1 | 1%nat, 0%nat => 1 | 2%nat, 1%nat => 1 | _, _ => 0 end) (fun _ => 0).
Example C161_example_free : exists h U, p_heat skinD = Some h /\ forall q r, In q [corner_q] -> (r < 3)%nat ->
  membrane false (false && pbends MINDLIN) 3 q (in_axes None U) r = (if Nat.ltb r 2 then h_alpha h q * (h_T h q - h_ref h q) else 0) /\
  curvature MINDLIN 3 q (in_axes None U) r = 0.
Proof.
  eexists. exists (fun c a => match c, a with 0%nat, 1%nat => 2 | 1%nat, 2%nat => 2 | _, _ => 0 end). split; [reflexivity|]. intros q r [<-|[]] Hr.
  unfold membrane, curvature, beta_grad, node_beta, grad, flag. destruct r as [|[|[|r]]]; [| | |lia]; cbn; split; field.
Qed.
Example C162_example : exists st, side_stress 2 true MINDLIN None [p0] skinD (fun _ _ => 0) (fun _ _ => 1) (fun _ i => match i with O => 1 | _ => 0 end) [] = Ok st /\ weight st = 1.
Proof.
  destruct (C162_moving_side 2 true MINDLIN None [p0] skinD (fun _ _ => 0) (fun _ _ => 1) (fun _ i => match i with O => 1 | _ => 0 end) I) as (st & E & _ & W & _).
  exists st. split; [exact E|]. rewrite W, integral_cons, integral_nil. cbn [p0 jxw]. lra.
Qed.

Print Assumptions C161_value.
Print Assumptions C161_derivative.
Print Assumptions C161_sensitivity.
Print Assumptions C161_order.
Print Assumptions C161_free_expansion.
Print Assumptions C161_weight.
Print Assumptions C162_moving_side.
Print Assumptions C162_second_side.
Print Assumptions C162_two_sides_refuted.
Print Assumptions C162_temperature_partial.
Print Assumptions C162_temperature_refuted.
Print Assumptions C162_refused.
