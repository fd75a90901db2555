(** C190-C195: the reduced-frequency (UG) and PK flutter solvers. *)
From Coq Require Import Reals List Arith Bool Lra Lia Permutation Sorted.
From Verif Require Import Base BaseLemmas Flut_Model Flut_Spec Flut_Proofs Flut_Proofs2 Flut_Proofs3 Ufl_Model Ufl_Spec Ufl_Proofs Ufl_Proofs2 Ufl_Proofs3 Ufl_Proofs4.
Import ListNotations.
Open Scope R_scope.

(** ** C190 *)
(** an eigenpair of the UG matrices reported as physical is a harmonic motion at the reported speed, damping and frequency *)
Theorem C190_root_solves : forall n kr b rho m k a num den q, b <> 0 -> den <> (0, 0) ->
  eigenpair n (ug_A kr b rho m a) (ug_B k) num den q ->
  let r := ug_root kr b num den in
  k_bad r = false ->
  0 < k_V r /\ k_om r * b = k_kr r * k_V r /\ k_kr r = kr /\ harmonic n rho m k a (k_om r) (k_V r) (k_g r) q.
Proof. intros n kr b rho m k a num den q Hb Hd He r. apply physical_harmonic; auto. Qed.
(** and every harmonic motion at a positive speed is such an eigenpair and is reported *)
Theorem C190_complete : forall n b rho m k a om V g q, b <> 0 -> 0 < V -> harmonic n rho m k a om V g q ->
  let kr := om * b / V in
  exists num den, den <> (0, 0) /\ eigenpair n (ug_A kr b rho m a) (ug_B k) num den q /\
    let r := ug_root kr b num den in k_bad r = false /\ k_V r = V /\ k_g r = g /\ k_om r = om.
Proof.
  intros n b rho m k a om V g q Hb HV Hh kr. destruct (harmonic_found n b rho m k a om V g q Hb HV Hh) as (He & Er).
  exists (1 / V ^ 2, g / V ^ 2), (1, 0). split; [intros E; inversion E; lra|]. split; [exact He|]. fold kr in Er. rewrite Er. auto.
Qed.
(** a root is flagged exactly when the eigenvalue is finite and its real part is not positive *)
Theorem C190_flag : forall kr b num den, den <> (0, 0) ->
  (k_bad (ug_root kr b num den) = true <-> fst (cdiv num den) <= 0).
Proof.
  intros kr b num den Hd. unfold ug_root. rewrite (proj2 (cnz_true den) Hd). cbv zeta.
  destruct (rlt_spec 0 (fst (cdiv num den))); cbn [k_bad]; split; intros; try discriminate; auto; try (apply Rnot_lt_le; assumption); exfalso; lra.
Qed.
(** an infinite eigenvalue is not flagged, and is reported as a physical root at zero speed *)
Theorem C190_infinite_refuted : exists n kr b rho m k a num q,
  eigenpair n (ug_A kr b rho m a) (ug_B k) num (0, 0) q /\ (exists i, (i < n)%nat /\ q i <> (0, 0)) /\ num <> (0, 0) /\
  let r := ug_root kr b num (0, 0) in k_bad r = false /\ k_V r = 0.
Proof.
  exists 1%nat, 1, 1, 1, (fun _ _ => 1), (fun _ _ => 0), (fun _ _ => (0, 0)), (1, 0), (fun _ => (1, 0)). split; [|split; [|split]].
  - intros i Hi. unfold cmv, ug_A, ug_B, cmul, cadd, cscal; simpl. f_equal; ring.
  - exists 0%nat. split; [lia|]. intros E; inversion E; lra.
  - intros E; inversion E; lra.
  - cbv zeta. assert (Hz : cnz (0, 0) = false) by (unfold cnz; simpl; destruct (Req_EM_T 0 0); [auto|congruence]).
    unfold ug_root. rewrite Hz. auto.
Qed.
Example C190_example : let m := fun _ _ : nat => 1 in let k := fun _ _ : nat => 4 in let a := fun _ _ : nat => (-6, -8) in
  harmonic 1 1 m k a 1 1 1 (fun _ => (1, 0)) /\ eigenpair 1 (ug_A 1 1 1 m a) (ug_B k) (1, 1) (1, 0) (fun _ => (1, 0)) /\
  k_bad (ug_root 1 1 (1, 1) (1, 0)) = false.
Proof.
  cbv zeta. split; [|split].
  - intros i Hi. unfold cmul, cadd, cscal; simpl. unfold cadd, cscal, cmul; simpl; unfold cmul, cadd, cscal, conj; simpl. f_equal; field.
  - intros i Hi. unfold cmv, ug_A, ug_B, cmul, cadd, cscal; simpl; unfold cmul, cadd, cscal, conj; simpl. f_equal; field.
  - apply not_true_iff_false. intros E. apply C190_flag in E; [|intros E'; inversion E'; lra].
    assert (X : cdiv (1, 1) (1, 0) = (1, 1)) by (apply cdiv_unique; [unfold c0; intros E'; inversion E'; lra|unfold cmul; simpl; f_equal; ring]).
    rewrite X in E. simpl in E. lra.
Qed.

(** ** C191 *)
(** derivative of an eigenvalue branch with respect to a structural parameter that does not move the flow *)
Theorem C191_parameter_partial : forall n kr b rho (m k : R -> rmat) a (eig : R -> cpx) (x : R -> cvec) xl p dm dk deig dx,
  (forall i j, (i < n)%nat -> (j < n)%nat -> derivable_pt_lim (fun t => m t i j) p (dm i j)) ->
  (forall i j, (i < n)%nat -> (j < n)%nat -> derivable_pt_lim (fun t => k t i j) p (dk i j)) ->
  cderiv eig p deig -> (forall j, (j < n)%nat -> cderiv (fun t => x t j) p (dx j)) ->
  (forall t i, (i < n)%nat -> cmv n (ug_A kr b rho (m t) a) (x t) i = cmul (eig t) (cmv n (ug_B (k t)) (x t) i)) ->
  (forall j, (j < n)%nat -> csum n (fun i => cmul (conj (xl i)) (ug_A kr b rho (m p) a i j)) =
                            cmul (eig p) (csum n (fun i => cmul (conj (xl i)) (ug_B (k p) i j)))) ->
  cdot n xl (cmv n (ug_B (k p)) (x p)) <> (0, 0) ->
  ug_eig_sens n (ug_B (k p)) (ug_A_param kr b rho dm) (ug_B_param dk) (eig p) xl (x p) = deig.
Proof.
  intros n kr b rho m k a eig x xl p dm dk deig dx Hm Hk He Hx HR HL Hn.
  apply (ug_eig_derivative n (fun t => ug_A kr b rho (m t) a) (fun t => ug_B (k t)) eig x xl p _ _ deig dx); auto.
  - intros i j Hi Hj. apply ug_A_param_derivative; auto.
  - intros i j Hi Hj. apply (cderiv_real (fun t => k t i j)); auto.
Qed.
(** and with respect to the reduced frequency *)
Theorem C191_reduced_frequency : forall n kr b rho m k (a : R -> cmat) (eig : R -> cpx) (x : R -> cvec) xl da deig dx, b <> 0 ->
  (forall i j, (i < n)%nat -> (j < n)%nat -> cderiv (fun t => a t i j) kr (da i j)) ->
  cderiv eig kr deig -> (forall j, (j < n)%nat -> cderiv (fun t => x t j) kr (dx j)) ->
  (forall t i, (i < n)%nat -> cmv n (ug_A t b rho m (a t)) (x t) i = cmul (eig t) (cmv n (ug_B k) (x t) i)) ->
  (forall j, (j < n)%nat -> csum n (fun i => cmul (conj (xl i)) (ug_A kr b rho m (a kr) i j)) =
                            cmul (eig kr) (csum n (fun i => cmul (conj (xl i)) (ug_B k i j)))) ->
  cdot n xl (cmv n (ug_B k) (x kr)) <> (0, 0) ->
  ug_eig_sens n (ug_B k) (ug_A_kr kr b rho m da) ug_B_kr (eig kr) xl (x kr) = deig.
Proof.
  intros n kr b rho m k a eig x xl da deig dx Hb Ha He Hx HR HL Hn.
  apply (ug_eig_derivative n (fun t => ug_A t b rho m (a t)) (fun _ => ug_B k) eig x xl kr _ _ deig dx); auto.
  - intros i j Hi Hj. apply ug_A_kr_derivative; auto.
  - intros i j Hi Hj. apply (cderiv_const (ug_B k i j)).
Qed.
(** wrong when the aerodynamic matrix depends on the parameter *)
Theorem C191_flow_parameter_refuted : exists n kr b rho (m k : R -> rmat) (a : R -> cmat) (eig : R -> cpx) (x : R -> cvec) xl p dm dk deig dx,
  (forall i j, (i < n)%nat -> (j < n)%nat -> derivable_pt_lim (fun t => m t i j) p (dm i j)) /\
  (forall i j, (i < n)%nat -> (j < n)%nat -> derivable_pt_lim (fun t => k t i j) p (dk i j)) /\
  cderiv eig p deig /\ (forall j, (j < n)%nat -> cderiv (fun t => x t j) p (dx j)) /\
  (forall t i, (i < n)%nat -> cmv n (ug_A kr b rho (m t) (a t)) (x t) i = cmul (eig t) (cmv n (ug_B (k t)) (x t) i)) /\
  (forall j, (j < n)%nat -> csum n (fun i => cmul (conj (xl i)) (ug_A kr b rho (m p) (a p) i j)) =
                            cmul (eig p) (csum n (fun i => cmul (conj (xl i)) (ug_B (k p) i j)))) /\
  cdot n xl (cmv n (ug_B (k p)) (x p)) <> (0, 0) /\
  ug_eig_sens n (ug_B (k p)) (ug_A_param kr b rho dm) (ug_B_param dk) (eig p) xl (x p) <> deig.
Proof.
  exists 1%nat, 1, 1, 2, (fun _ _ _ => 1), (fun _ _ _ => 1), (fun t _ _ => (t, 0)), (fun t => (1 - t, 0)), (fun _ _ => (1, 0)), (fun _ => (1, 0)), 0,
    (fun _ _ => 0), (fun _ _ => 0), (-1, 0), (fun _ => (0, 0)).
  repeat match goal with |- _ /\ _ => split end.
  - intros. apply (derivable_pt_lim_const 1).
  - intros. apply (derivable_pt_lim_const 1).
  - split; simpl; [|apply (derivable_pt_lim_const 0)]. replace (-1) with (0 - 1) by ring. apply (derivable_pt_lim_minus (fun _ => 1) (fun t => t)); [apply (derivable_pt_lim_const 1)|apply derivable_pt_lim_id].
  - intros. apply (cderiv_const (1, 0)).
  - intros t i Hi. unfold cmv, ug_A, ug_B, cmul, cadd, cscal; simpl; unfold cmul, cadd, cscal, conj; simpl. f_equal; field.
  - intros j Hj. unfold ug_A, ug_B, cmul, cadd, cscal, conj; simpl; unfold cmul, cadd, cscal, conj; simpl. f_equal; field.
  - unfold cdot, cmv, ug_B, cmul, cadd, cscal, conj; simpl; unfold cmul, cadd, cscal, conj; simpl. intros E; inversion E; lra.
  - intros E. assert (X : ug_eig_sens 1 (ug_B (fun _ _ => 1)) (ug_A_param 1 1 2 (fun _ _ => 0)) (ug_B_param (fun _ _ => 0)) (1 - 0, 0) (fun _ => (1, 0)) (fun _ => (1, 0)) = c0).
    { unfold ug_eig_sens. apply cdiv_unique.
      - unfold cdot, cmv, ug_B, cmul, cadd, cscal, conj, c0; simpl. intros E'; inversion E'; lra.
      - unfold cdot, cmv, ug_A_param, ug_A, ug_B_param, ug_B, csub, cmul, cadd, cscal, conj, c0; simpl; unfold cmul, cadd, cscal, conj; simpl. f_equal; field. }
    rewrite X in E. unfold c0 in E. inversion E. lra.
Qed.
Example C191_example : let a := fun (t : R) (_ _ : nat) => (t, 0) in
  (forall t i, (i < 1)%nat -> cmv 1 (ug_A t 1 2 (fun _ _ => 1) (a t)) (fun _ => (1, 0)) i = cmul (t * t - t, 0) (cmv 1 (ug_B (fun _ _ => 1)) (fun _ => (1, 0)) i)) /\
  cderiv (fun t => (t * t - t, 0)) 2 (3, 0) /\ cdot 1 (fun _ => (1, 0)) (cmv 1 (ug_B (fun _ _ => 1)) (fun _ => (1, 0))) <> (0, 0).
Proof.
  cbv zeta. split; [|split].
  - intros t i Hi. unfold cmv, ug_A, ug_B, cmul, cadd, cscal; simpl; unfold cmul, cadd, cscal, conj; simpl. f_equal; field.
  - split; simpl; [|apply (derivable_pt_lim_const 0)]. replace 3 with (1 * 2 + 2 * 1 - 1) by ring.
    apply (derivable_pt_lim_minus (fun t => t * t) (fun t => t)); [|apply derivable_pt_lim_id].
    apply (derivable_pt_lim_mult (fun t => t) (fun t => t)); apply derivable_pt_lim_id.
  - unfold cdot, cmv, ug_B, cmul, cadd, cscal, conj; simpl; unfold cmul, cadd, cscal, conj; simpl. intros E; inversion E; lra.
Qed.

(** ** C192 *)
(** the sweep goes through n+1 evenly spaced reduced frequencies *)
Theorem C192_sweep : forall analyze N inc lo hi n s, ug_oracle N analyze -> lo < hi -> (0 < n)%nat ->
  ug_scan analyze inc lo hi n (mkKst [] []) = Ok s ->
  map fst (ks_sols s) = map (fun i => lo + INR i * ((hi - lo) / INR n)) (seq 0 (S n)) /\
  map k_ref (map snd (ks_sols s)) = map fst (ks_sols s) /\
  (forall l1 l2 kr1 s1 kr2 s2, ks_sols s = l1 ++ (kr1, s1) :: (kr2, s2) :: l2 -> s1 = analyze kr1 (Some s2)) /\
  ug_identify inc (ks_sols s) = Ok (ks_xs s).
Proof.
  intros analyze N inc lo hi n s Ho Hlt Hn E. unfold ug_scan in E. cbn [ks_sols] in E. rewrite usweep_loop in E by auto. cbn [bind] in E.
  destruct (usweep_good N analyze lo hi n (S n) Ho) as (G & Er). assert (K := usweep_keys analyze lo hi n (S n)).
  assert (P : forall l1 l2 kr1 s1 kr2 s2, fst (usweep analyze lo hi n (S n)) = l1 ++ (kr1, s1) :: (kr2, s2) :: l2 -> s1 = analyze kr1 (Some s2)).
  { clear. assert (X : forall k l1 l2 kr1 s1 kr2 s2, fst (usweep analyze lo hi n k) = l1 ++ (kr1, s1) :: (kr2, s2) :: l2 -> s1 = analyze kr1 (Some s2)); [|apply X].
    induction k as [|k IH]; intros l1 l2 kr1 s1 kr2 s2 E; [destruct l1; discriminate|]. destruct l1 as [|e l1].
    - cbn [usweep fst] in E. cbn [app] in E. injection E as <- <- E. destruct k as [|k]; [discriminate|]. cbn [usweep fst snd] in *. injection E as _ <- _. reflexivity.
    - cbn [usweep fst app] in E. injection E as _ E. apply (IH l1 l2 kr1 s1 kr2 s2 E). }
  set (m := usweep analyze lo hi n (S n)) in *. clearbody m.
  destruct (ug_identify _ _) eqn:Ei; cbn [bind] in E; [|discriminate]. injection E as <-. cbn [ks_sols ks_xs].
  rewrite K, Er. split; [|split; [auto|split; [exact P|auto]]].
  rewrite <- map_rev. assert (V : forall i, (i <= n)%nat -> kr_val lo hi n (n - i) = lo + INR i * ((hi - lo) / INR n)).
  { intros i Hi. rewrite kr_val_V by lia. replace (n - (n - i))%nat with i by lia. unfold V_val. destruct (Nat.eqb_spec i n) as [->|]; auto. field. apply not_0_INR. lia. }
  apply nth_ext with (d := 0) (d' := 0); [rewrite !map_length, rev_length; auto|]. intros i Hi. rewrite map_length, rev_length, seq_length in Hi.
  rewrite (nth_indep _ 0 (kr_val lo hi n 0)) by (rewrite map_length, rev_length, seq_length; auto). rewrite map_nth.
  rewrite rev_nth by (rewrite seq_length; auto). rewrite seq_length, seq_nth by lia.
  rewrite (nth_indep _ 0 (lo + INR 0 * ((hi - lo) / INR n))) by (rewrite map_length, seq_length; auto).
  rewrite (map_nth (fun i => lo + INR i * ((hi - lo) / INR n)) (seq 0 (S n)) 0%nat i). rewrite seq_nth by lia.
  replace (0 + (S n - S i))%nat with (n - i)%nat by lia. rewrite V by lia. reflexivity.
Qed.
Theorem C192_sweep_total : forall analyze N inc lo hi n, ug_oracle N analyze -> (0 < N)%nat -> lo < hi -> (0 < n)%nat ->
  exists s, ug_scan analyze inc lo hi n (mkKst [] []) = Ok s.
Proof.
  intros analyze N inc lo hi n Ho HN Hlt Hn. unfold ug_scan. cbn [ks_sols]. rewrite usweep_loop by auto. cbn [bind].
  destruct (usweep_good N analyze lo hi n (S n) Ho) as (G & Er). set (m := fst (usweep analyze lo hi n (S n))) in *.
  assert (L : length (map snd m) = S n) by (rewrite <- (map_length k_ref), Er, rev_length, map_length, seq_length; auto).
  destruct (map snd m) as [|s0 [|s1 t]] eqn:Em; simpl in L; try lia.
  destruct (ug_identify_total inc m N s0 s1 t Em HN) as (xs & ->); [rewrite Em; auto|]. simpl. eauto.
Qed.
(** the crossover points are exactly these, in order of speed *)
Theorem C192_crossovers_partial : forall inc m xs, ug_identify inc m = Ok xs ->
  exists s0 t, map snd m = s0 :: t /\ in_order xs /\ forall k x, In (k, x) xs <->
    (exists i r, nth_error (k_roots s0) i = Some r /\ Rabs (k_ref s0) < tol /\ k_bad r = false /\ Rabs (k_g r) < tol /\
        k = k_V r /\ x = mkKx s0 s0 i (Some r)) \/
    (exists i a b, (i < length (k_roots s0))%nat /\ kretained (map snd m) i /\ neighbours (map snd m) a b /\ examined i a b /\
        kcrossing i a b k x) \/
    (exists i a b l, (i < length (k_roots s0))%nat /\ kretained (map snd m) i /\ map snd m = l ++ [b; a] /\ inc = true /\
        examined i a b /\ 0 < kg i a /\ k = kvel i a /\ x = mkKx a a i None).
Proof. exact ug_identify_iff. Qed.
Theorem C192_exactly_once : forall inc m xs, ug_identify inc m = Ok xs -> NoDup (map k_ref (map snd m)) -> NoDup (map snd xs).
Proof. exact ug_identify_nodup. Qed.

(** ** examples: one mode *)
Definition one_k (f V : R -> R) (kr : R) (_ : option ksol) : ksol := mkKs kr [mkKr kr (V kr) (f kr) 0 false (0, 0)].
Lemma one_k_oracle f V : ug_oracle 1 (one_k f V).
Proof. intros kr p. repeat split. constructor; [reflexivity|constructor]. Qed.
Ltac kdec := repeat (match goal with
  | |- context [Rcase_abs ?a] => destruct (Rcase_abs a); try (exfalso; lra)
  | |- context [rlt ?a ?b] => destruct (rlt_spec a b); try (exfalso; lra)
  | |- context [rle ?a ?b] => destruct (rle_spec a b); try (exfalso; lra)
  | |- context [Req_EM_T ?a ?b] => destruct (Req_EM_T a b); try (exfalso; lra)
  end; cbn [andb orb negb]).
(** sign change of strength 1 *)
Theorem C192_large_damping_refuted : exists analyze s a b, ug_oracle 1 analyze /\ ug_scan analyze false 1 2 1 (mkKst [] []) = Ok s /\
  neighbours (map snd (ks_sols s)) a b /\ physical 0 a /\ physical 0 b /\ kg 0 a <= 0 < kg 0 b /\ ks_xs s = [].
Proof.
  set (f := fun k : R => if rlt k (3 / 2) then -1 else 1). set (an := one_k f (fun k => k)).
  assert (E : exists s, ug_scan an false 1 2 1 (mkKst [] []) = Ok s) by (apply (C192_sweep_total an 1); [apply one_k_oracle|lia|lra|lia]).
  destruct E as (s & E). destruct (C192_sweep an 1 false 1 2 1 s (one_k_oracle _ _) ltac:(lra) ltac:(lia) E) as (K & Kr & _ & I).
  assert (S : ks_sols s = [(1, an 1 None); (2, an 2 None)]).
  { unfold ug_scan in E. cbn [ks_sols] in E. rewrite usweep_loop in E by (lra || lia). cbn [bind usweep fst snd] in E.
    destruct (ug_identify _ _); cbn [bind] in E; [|discriminate]. injection E as <-. cbn [ks_sols].
    replace (kr_val 1 2 1 1) with 1 by reflexivity. replace (kr_val 1 2 1 0) with 2 by (unfold kr_val; simpl; lra). reflexivity. }
  assert (G1 : kg 0 (an 1 None) = -1) by (unfold kg, an, one_k, f; cbn [k_roots nth_error k_g]; kdec; reflexivity).
  assert (G2 : kg 0 (an 2 None) = 1) by (unfold kg, an, one_k, f; cbn [k_roots nth_error k_g]; kdec; reflexivity).
  exists an, s, (an 1 None), (an 2 None). split; [apply one_k_oracle|]. split; [exact E|].
  split; [rewrite S; exists [], []; reflexivity|]. split; [eexists; split; reflexivity|]. split; [eexists; split; reflexivity|]. split; [rewrite G1, G2; lra|].
  destruct (ug_identify_iff _ _ _ I) as (s0 & t & Em & _ & C). rewrite S in Em, C. cbn [map snd] in Em, C. injection Em as <- <-.
  destruct (ks_xs s) as [|(k, x) xs] eqn:Ex; [reflexivity|]. exfalso.
  assert (Hin : In (k, x) ((k, x) :: xs)) by now left. apply C in Hin.
  assert (N : forall a b i, neighbours [an 1 None; an 2 None] a b -> (i < 1)%nat -> ~ examined i a b).
  { intros a b i (l1 & l2 & El) Hi (_ & _ & _ & Ha & _). destruct l1 as [|? [|? [|? l1]]]; try discriminate.
    injection El as <- <- _. replace i with 0%nat in Ha by lia. rewrite G1 in Ha. unfold Rabs in Ha. destruct (Rcase_abs (-1)); lra. }
  destruct Hin as [(i & r & _ & Hr & _)|[(i & a & b & Hi & _ & Hn & Hx & _)|(i & a & b & l & _ & _ & _ & Hf & _)]].
  - cbn [k_ref an one_k] in Hr. rewrite Rabs_R1 in Hr. unfold tol in Hr. lra.
  - apply (N a b i Hn Hi Hx).
  - discriminate.
Qed.
(** a sweep of a single reduced frequency reads behind the last solution *)
Theorem C192_single_solution_refuted : forall analyze N inc lo hi, ug_oracle N analyze -> physical 0 (analyze lo None) ->
  ug_scan analyze inc lo hi 0 (mkKst [] []) = Fault OutOfBounds.
Proof.
  intros analyze N inc lo hi Ho (r & Er & Hb). unfold ug_scan. cbn [ks_sols loop bind fst snd]. replace (kr_val lo hi 0 0) with lo by reflexivity. cbn [kinsert bind fst snd].
  assert (L : (0 < length (k_roots (analyze lo None)))%nat) by (apply nth_error_Some; congruence).
  assert (HN : length (k_roots (analyze lo None)) = N) by apply (Ho lo None). rewrite HN in L.
  unfold ug_identify. cbn [map snd rev app]. rewrite HN. unfold assert_. destruct (Nat.eqb_spec N 0); [lia|]. cbn [negb].
  destruct (loop_total (fun i acc => b <- kneglect [analyze lo None] i ;; Ok (acc ++ [b])) N) with (a := @nil bool) as (negs & ->).
  { intros i a Hi. unfold kneglect. destruct (kmax_total N i [analyze lo None] Hi ltac:(auto) 0) as (q & ->). simpl. eauto. }
  cbn [bind]. assert (X : exists x0, (if rlt (Rabs (k_ref (analyze lo None))) tol then loop N (ug_divergence (analyze lo None)) [] else Ok []) = Ok x0).
  { destruct (rlt _ _); [|eauto]. apply loop_total. intros i a Hi. unfold ug_divergence. destruct (kget_total N _ i HN Hi) as (q & ->). simpl. eauto. }
  destruct X as (x0 & ->). cbn [bind]. destruct N as [|N]; [lia|].
  rewrite (loop_fault _ _ OutOfBounds); [reflexivity|]. cbn [ug_pairs bind ug_highest hd_error]. unfold ug_if_process, kget. rewrite Er. cbn [bind]. now rewrite Hb.
Qed.

Print Assumptions C190_root_solves. Print Assumptions C190_complete. Print Assumptions C190_flag. Print Assumptions C190_infinite_refuted.
Print Assumptions C191_parameter_partial. Print Assumptions C191_reduced_frequency. Print Assumptions C191_flow_parameter_refuted.
Print Assumptions C192_sweep. Print Assumptions C192_sweep_total. Print Assumptions C192_crossovers_partial. Print Assumptions C192_exactly_once.
Print Assumptions C192_large_damping_refuted. Print Assumptions C192_single_solution_refuted.
