(** C193-C195: search and critical root of the UG solver; the PK solver. *)
From Coq Require Import Reals List Arith Bool Lra Lia Permutation Sorted.
From Verif Require Import Base BaseLemmas Flut_Model Flut_Spec Flut_Proofs Flut_Proofs2 Flut_Proofs3 Ufl_Model Ufl_Spec Ufl_Proofs Ufl_Proofs2 Ufl_Proofs3 Ufl_Proofs4 Ufl_Props.
Import ListNotations.
Open Scope R_scope.

(** ** C193 *)
Theorem C193_search : forall analyze x rl ru t iters m ok s m', 0 <= t ->
  nth_error (k_roots (kx_first x)) (kx_num x) = Some rl -> nth_error (k_roots (kx_second x)) (kx_num x) = Some ru ->
  k_g rl <= 0 < k_g ru -> ug_search analyze x t iters m = Ok (ok, s, m') ->
  let inside kr := Rmin (k_kr rl) (k_kr ru) <= kr <= Rmax (k_kr rl) (k_kr ru) in
  (ok = true <-> exists sol, s = Some sol /\ Rabs (kg (kx_num x) sol) <= t) /\
  (s = None <-> iters = 0%nat) /\
  (forall sol, s = Some sol -> exists kr, In (kr, sol) m' /\ sol = analyze kr (Some (kx_first x)) /\ inside kr) /\
  (forall kr sol, In (kr, sol) m' -> In (kr, sol) m \/ (inside kr /\ sol = analyze kr (Some (kx_first x)))) /\
  (forall e, In e m -> In e m').
Proof.
  intros analyze x rl ru t iters m ok s m' Ht E1 E2 Hs E inside. unfold ug_search, kget in E. rewrite E1, E2 in E. cbn [bind] in E.
  assert (Em : iters = 0%nat -> s = None) by (intros ->; simpl in E; inversion E; auto).
  apply ug_bisect_spec in E; auto. destruct E as (A1 & A2 & A3 & A4 & A5). cbn [lower_V upper_V] in *.
  split; [split; auto|split; [split; auto|split; [|split; auto]]].
  - intros (sol & -> & Hle). destruct ok; auto. destruct (A2 eq_refl) as [(_ & X)|(sol' & X & Hgt)]; [discriminate|].
    inversion X; subst. lra.
  - intros ->. destruct A3 as [(-> & _)|(V & sol & X & _)]; [auto|discriminate].
  - intros sol ->. destruct A3 as [(_ & X)|(V & sol' & X & Es & Hb & Hin)]; [discriminate|]. injection X as ->. exists V. auto.
Qed.
Theorem C193_search_total : forall analyze N x rl ru t iters m, 0 <= t -> ug_oracle N analyze -> (kx_num x < N)%nat ->
  nth_error (k_roots (kx_first x)) (kx_num x) = Some rl -> nth_error (k_roots (kx_second x)) (kx_num x) = Some ru ->
  k_g rl < 0 < k_g ru -> k_kr rl <> k_kr ru ->
  (forall kr, In kr (map fst m) -> kr <= Rmin (k_kr rl) (k_kr ru) \/ Rmax (k_kr rl) (k_kr ru) <= kr) ->
  exists res, ug_search analyze x t iters m = Ok res.
Proof.
  intros analyze N x rl ru t iters m Ht Ho Hn E1 E2 Hg HV Hm. unfold ug_search, kget. rewrite E1, E2. cbn [bind].
  apply ug_bisect_total; auto.
  - intros V. destruct (Ho V (Some (kx_first x))) as (_ & L & _). apply (kget_total N); auto.
  - intros V Hin. cbn [lower_V upper_V]. unfold strictly_between. specialize (Hm V Hin). lra.
Qed.
(** after any history of calls the critical root is the lowest of the roots found, no crossover is lost, and none of the
    open crossovers starts below it; "no critical root" is only reported when there is no crossover *)
Theorem C193_critical_partial : forall analyze inc lo hi n s0 s1 s2 t iters b r,
  ug_scan analyze inc lo hi n (mkKst [] []) = Ok s0 -> ug_calls analyze s0 s1 ->
  ug_critical analyze t iters s1 = Ok (b, r, s2) ->
  (b = false -> r = None /\ ks_xs s0 = []) /\
  (b = true -> exists r0, r = Some r0 /\ In r0 (ug_found s2) /\
     (forall q, In q (ug_found s2) -> k_V r0 <= k_V q) /\
     (forall k x, In (k, x) (ks_xs s2) -> kx_root x = None -> k_V r0 <= kvel (kx_num x) (kx_first x))) /\
  let brackets s := map (fun e : R * kxo => (kx_first (snd e), kx_second (snd e), kx_num (snd e))) (ks_xs s) in
  Permutation (brackets s2) (brackets s0).
Proof.
  intros analyze inc lo hi n s0 s1 s2 t iters b r Hs Hc E.
  assert (I0 : kinv (ks_xs s0) (ks_xs s0)).
  { unfold ug_scan in Hs. cbn [ks_sols] in Hs. destruct (loop _ _ _) as [p|]; cbn [bind] in Hs; [|discriminate].
    destruct (ug_identify inc (fst p)) as [xs|] eqn:Ei; cbn [bind] in Hs; [|discriminate]. injection Hs as <-. cbn [ks_xs]. eapply ug_identify_inv; eauto. }
  assert (I1 := ug_calls_inv _ _ _ _ Hc I0). unfold ug_critical in E. apply (ug_critical_inv _ _ _ _ _ _ _ _ _ I1) in E.
  destruct E as ((P & S & F) & Hf & Ht). split; [|split; [|exact P]].
  - intros Eb. destruct (Hf Eb) as (-> & Ex). split; [auto|]. rewrite Ex in P. apply Permutation_nil in P. destruct (ks_xs s0); [auto|discriminate].
  - intros Eb. destruct (Ht Eb) as (k & x & rest & r0 & Ex & Er & ->). exists r0. split; [auto|].
    rewrite Ex in *. assert (Hk : k = k_V r0). { inversion F as [|? ? F1 _]; subst. unfold keyed in F1. simpl in F1. rewrite Er in F1. exact F1. }
    assert (L : forall e, In e ((k, x) :: rest) -> k_V r0 <= fst e).
    { intros e [<-|He]; [simpl; lra|]. apply StronglySorted_inv in S. destruct S as (_ & S). rewrite Forall_forall in S. specialize (S e He). simpl in S. lra. }
    split; [|split].
    + unfold ug_found. rewrite Ex. simpl. rewrite Er. now left.
    + intros q Hq. unfold ug_found in Hq. rewrite Ex in Hq. apply in_flat_map in Hq. destruct Hq as (e & He & Hq). rewrite Forall_forall in F. assert (Fe := F e He). unfold keyed in Fe.
      assert (Le := L e He). destruct (kx_root (snd e)); [|destruct Hq]. destruct Hq as [<-|[]]. lra.
    + intros k' x' He Hn. rewrite Forall_forall in F. assert (Fe := F _ He). unfold keyed in Fe. cbn [snd fst] in Fe. rewrite Hn in Fe. assert (Le := L _ He). simpl in Le. lra.
Qed.
Theorem C193_terminates : forall analyze t iters s, ug_critical analyze t iters s <> Fault OutOfFuel.
Proof. intros. unfold ug_critical. apply ug_critical_terminates. assert (X := k_open_le (ks_xs s)). lia. Qed.

(** *** witnesses *)
Lemma scan_three f V : Rabs (f 4) < 3 / 4 -> Rabs (f 3) < 3 / 4 -> Rabs (f 2) < 3 / 4 -> tol <= Rabs (f 2) ->
  f 4 <= 0 -> 0 < f 3 -> f 2 <= 0 -> V 4 < V 2 ->
  let an := fun k => one_k f V k None in
  ug_scan (one_k f V) false 2 4 2 (mkKst [] []) =
  Ok (mkKst [(2, an 2); (3, an 3); (4, an 4)] [(V 4, mkKx (an 4) (an 3) 0 None); (V 2, mkKx (an 2) (an 3) 0 None)]).
Proof.
  intros H4 H3 H2 Ht F4 F3 F2 HV an. unfold ug_scan. cbn [ks_sols]. rewrite usweep_loop by (lra || lia). cbn [bind usweep fst snd].
  replace (kr_val 2 4 2 2) with 2 by reflexivity. replace (kr_val 2 4 2 1) with 3 by (unfold kr_val; simpl; lra). replace (kr_val 2 4 2 0) with 4 by (unfold kr_val; simpl; lra).
  change (one_k f V 2 (Some (one_k f V 3 (Some (one_k f V 4 None))))) with (an 2). change (one_k f V 3 (Some (one_k f V 4 None))) with (an 3). change (one_k f V 4 None) with (an 4).
  assert (N : kneglect [an 2; an 3; an 4] 0 = Ok false).
  { destruct (kmax_total 1 0 [an 2; an 3; an 4] ltac:(lia) ltac:(repeat constructor) 0) as (r & Er).
    assert (X : kneglect [an 2; an 3; an 4] 0 = Ok (rlt r tol)) by (unfold kneglect; rewrite Er; reflexivity).
    rewrite X. f_equal. apply kneglect_spec in X. destruct (rlt r tol); auto. exfalso. apply (proj1 X eq_refl). exists (an 2). split; [now left|exact Ht]. }
  unfold ug_identify. cbn [map snd rev app]. unfold assert_. replace (length (k_roots (an 2))) with 1%nat by reflexivity. cbn [Nat.eqb negb loop bind app].
  rewrite N. cbn [bind nth app]. unfold an, one_k. cbn [k_ref]. assert (A2 : rlt (Rabs 2) tol = false) by (rewrite Rabs_right by lra; unfold tol; destruct (rlt_spec 2 (1 / 100000)); auto; lra).
  rewrite A2. cbn [bind]. assert (T2 : rlt tol (Rabs 2) = true) by (rewrite Rabs_right by lra; unfold tol; destruct (rlt_spec (1 / 100000) 2); auto; lra).
  assert (T3 : rlt tol (Rabs 3) = true) by (rewrite Rabs_right by lra; unfold tol; destruct (rlt_spec (1 / 100000) 3); auto; lra).
  assert (T4 : rlt tol (Rabs 4) = true) by (rewrite Rabs_right by lra; unfold tol; destruct (rlt_spec (1 / 100000) 4); auto; lra).
  cbn [ug_pairs]. unfold ug_process, ug_highest, ug_if_process, kget. cbn [k_roots nth_error bind k_bad k_g k_ref k_V hd_error]. rewrite T2, T3, T4. unfold max_g.
  cbn [orb andb negb].
  repeat match goal with
  | |- context [rlt ?a ?b] => destruct (rlt_spec a b); try (exfalso; lra); cbn [andb orb negb bind kxinsert]
  | |- context [rle ?a ?b] => destruct (rle_spec a b); try (exfalso; lra); cbn [andb orb negb bind kxinsert]
  end; reflexivity.
Qed.
Lemma ug_bisect_S analyze first num t k b last m m1 r : upper_g b - lower_g b <> 0 ->
  kinsert (new_V b) (analyze (new_V b) (Some first)) m = Ok m1 -> kget (analyze (new_V b) (Some first)) num = Ok r ->
  ug_bisect analyze first num t (S k) b last m =
  if rle (Rabs (k_g r)) t then Ok (true, Some (analyze (new_V b) (Some first)), m1)
  else ug_bisect analyze first num t k (shrink b (new_V b) (k_g r)) (Some (analyze (new_V b) (Some first))) m1.
Proof. intros H E1 E2. cbn [ug_bisect]. destruct (Req_EM_T _ _); [contradiction|]. cbv zeta. rewrite E1. cbn [bind]. rewrite E2. reflexivity. Qed.

Ltac kdec2 := repeat (match goal with |- context [rlt ?a ?b] => destruct (rlt_spec a b); try (exfalso; lra) end; cbn [bind kinsert]).
Definition wf (k : R) : R := if rlt k (9/4) then -1/2 else if rlt k (11/4) then 0 else if rlt k (13/4) then 1/2 else if rlt k (15/4) then 0 else -1/2.
Definition wV (k : R) : R := if rlt k (9/4) then 4 else if rlt k (11/4) then 2 else if rlt k (13/4) then 10 else if rlt k (15/4) then 3 else 1.
Ltac wval := unfold wf, wV; repeat match goal with |- context [rlt ?a ?b] => destruct (rlt_spec a b); try (exfalso; lra) end; try reflexivity; try lra.
Definition wan (k : R) : ksol := one_k wf wV k None.
Definition wstate : kstate := mkKst [(2, wan 2); (3, wan 3); (4, wan 4)] [(1, mkKx (wan 4) (wan 3) 0 None); (4, mkKx (wan 2) (wan 3) 0 None)].
Lemma wscan : ug_scan (one_k wf wV) false 2 4 2 (mkKst [] []) = Ok wstate.
Proof.
  assert (F4 : wf 4 = -1/2) by wval. assert (F3 : wf 3 = 1/2) by wval. assert (F2 : wf 2 = -1/2) by wval.
  assert (V4 : wV 4 = 1) by wval. assert (V2 : wV 2 = 4) by wval.
  rewrite scan_three; rewrite ?F4, ?F3, ?F2, ?V4, ?V2; try lra; try reflexivity; unfold tol, Rabs; destruct (Rcase_abs _); lra.
Qed.
Definition wroot (k : R) : kroot := mkKr k (wV k) (wf k) 0 false (0, 0).
Definition wstate1 : kstate := mkKst [(2, wan 2); (3, wan 3); (7/2, wan (7/2)); (4, wan 4)]
  [(3, mkKx (wan 4) (wan 3) 0 (Some (wroot (7/2)))); (4, mkKx (wan 2) (wan 3) 0 None)].
Definition wstate2 : kstate := mkKst [(2, wan 2); (5/2, wan (5/2)); (3, wan 3); (7/2, wan (7/2)); (4, wan 4)]
  [(2, mkKx (wan 2) (wan 3) 0 (Some (wroot (5/2)))); (3, mkKx (wan 4) (wan 3) 0 (Some (wroot (7/2))))].
Lemma wcritical : ug_critical (one_k wf wV) (1/100) 5 wstate = Ok (true, Some (wroot (7/2)), wstate1).
Proof.
  assert (F4 : wf 4 = -1/2) by wval. assert (F3 : wf 3 = 1/2) by wval. assert (F : wf (7/2) = 0) by wval. assert (V : wV (7/2) = 3) by wval.
  assert (NV : new_V (mkB 4 (wf 4) 3 (wf 3)) = 7/2) by (rewrite F4, F3; unfold new_V; simpl; field).
  unfold ug_critical. cbn [ks_xs wstate length ug_critical_loop kx_root]. unfold ug_refine, ug_search, kget. cbn [kx_first kx_second kx_num wan one_k k_roots nth_error bind k_g k_kr ks_sols].
  erewrite ug_bisect_S; [| |rewrite NV; cbn [ks_sols wstate kinsert]; kdec2; reflexivity|rewrite NV; reflexivity].
  - cbn [k_g]. rewrite F, Rabs_R0. destruct (rle_spec 0 (1/100)); [|lra]. rewrite NV. cbn [bind fst snd one_k k_roots nth_error k_V]. rewrite V.
    cbn [kxinsert ks_xs]. destruct (rlt_spec 3 4); [|lra]. cbn [ug_critical_loop ks_xs kx_root]. unfold wroot, wstate1, wroot. rewrite V. reflexivity.
  - cbn [upper_g lower_g]. rewrite F4, F3. lra.
Qed.
Lemma wnext : ug_next (one_k wf wV) (1/100) 5 wstate1 = Ok (true, Some (wroot (5/2)), wstate2).
Proof.
  assert (F2 : wf 2 = -1/2) by wval. assert (F3 : wf 3 = 1/2) by wval. assert (F : wf (5/2) = 0) by wval. assert (V : wV (5/2) = 2) by wval.
  assert (NV : new_V (mkB 2 (wf 2) 3 (wf 3)) = 5/2) by (rewrite F2, F3; unfold new_V; simpl; field).
  unfold ug_next. cbn [ks_xs wstate1 kx_take kx_root]. unfold ug_refine, ug_search, kget. cbn [kx_first kx_second kx_num wan one_k k_roots nth_error bind k_g k_kr ks_sols].
  erewrite ug_bisect_S; [| |rewrite NV; cbn [ks_sols wstate1 kinsert]; kdec2; reflexivity|rewrite NV; reflexivity].
  - cbn [k_g]. rewrite F, Rabs_R0. destruct (rle_spec 0 (1/100)); [|lra]. rewrite NV. cbn [bind fst snd one_k k_roots nth_error k_V]. rewrite V.
    cbn [kxinsert ks_xs]. destruct (rlt_spec 2 3); [|lra]. unfold wroot, wstate2, wroot. rewrite V. reflexivity.
  - cbn [upper_g lower_g]. rewrite F2, F3. lra.
Qed.
(** the first critical root need not be the lowest: a later call finds a root at a lower speed *)
Theorem C193_lowest_refuted : exists analyze s0 s1 s2 r1 r2, ug_oracle 1 analyze /\
  ug_scan analyze false 2 4 2 (mkKst [] []) = Ok s0 /\ ug_critical analyze (1/100) 5 s0 = Ok (true, Some r1, s1) /\
  ug_next analyze (1/100) 5 s1 = Ok (true, Some r2, s2) /\ k_V r2 < k_V r1.
Proof.
  exists (one_k wf wV), wstate, wstate1, wstate2, (wroot (7/2)), (wroot (5/2)). split; [apply one_k_oracle|].
  split; [apply wscan|]. split; [apply wcritical|]. split; [apply wnext|]. cbn [wroot k_V]. wval.
Qed.
Example C193_example : ug_scan (one_k wf wV) false 2 4 2 (mkKst [] []) = Ok wstate /\ ug_calls (one_k wf wV) wstate wstate2 /\
  exists r s, ug_critical (one_k wf wV) (1/100) 5 wstate2 = Ok (true, Some r, s) /\ k_V r = 2.
Proof.
  split; [apply wscan|]. split.
  - apply (ug_calls_critical _ (1/100) 5%nat _ _ _ _ _ wcritical). apply (ug_calls_next _ (1/100) 5%nat _ _ _ _ _ wnext). constructor.
  - exists (wroot (5/2)), wstate2. split; [reflexivity|]. cbn [wroot k_V]. wval.
Qed.
(** true is returned although the search did not converge, and a limit of zero iterations is a null dereference *)
Theorem C193_converged_refuted : exists analyze s, ug_oracle 1 analyze /\ ug_scan analyze false 2 4 2 (mkKst [] []) = Ok s /\
  (exists r s', ug_critical analyze (1/100) 1 s = Ok (true, Some r, s') /\ 1/100 < Rabs (k_g r)) /\
  ug_critical analyze (1/100) 0 s = Fault NullDeref.
Proof.
  set (f := fun k : R => if rlt k (9/4) then -1/2 else if rlt k (13/4) then 1/2 else if rlt k (15/4) then 1/4 else -1/2).
  set (V := fun k : R => if rlt k (9/4) then 4 else if rlt k (13/4) then 10 else if rlt k (15/4) then 3 else 1).
  assert (F4 : f 4 = -1/2) by (unfold f; kdec2; reflexivity). assert (F3 : f 3 = 1/2) by (unfold f; kdec2; reflexivity). assert (F2 : f 2 = -1/2) by (unfold f; kdec2; reflexivity).
  assert (F : f (7/2) = 1/4) by (unfold f; kdec2; reflexivity). assert (V4 : V 4 = 1) by (unfold V; kdec2; reflexivity). assert (V2 : V 2 = 4) by (unfold V; kdec2; reflexivity).
  assert (Vm : V (7/2) = 3) by (unfold V; kdec2; reflexivity).
  clearbody f V.
  assert (NV : new_V (mkB 4 (f 4) 3 (f 3)) = 7/2) by (rewrite F4, F3; unfold new_V; simpl; field).
  exists (one_k f V). eexists. split; [apply one_k_oracle|]. split; [|split].
  - apply scan_three; rewrite ?F4, ?F3, ?F2, ?V4, ?V2; try lra; unfold tol, Rabs; destruct (Rcase_abs _); lra.
  - rewrite V4, V2. unfold ug_critical. cbn [ks_xs length ug_critical_loop kx_root]. unfold ug_refine, ug_search, kget. cbn [kx_first kx_second kx_num one_k k_roots nth_error bind k_g k_kr ks_sols].
    exists (mkKr (7/2) 3 (1/4) 0 false (0, 0)).
    erewrite ug_bisect_S; [| |rewrite NV; cbn [kinsert]; kdec2; reflexivity|rewrite NV; reflexivity].
    + cbn [k_g]. rewrite F. assert (A : Rabs (1/4) = 1/4) by (apply Rabs_right; lra). rewrite A. destruct (rle_spec (1/4) (1/100)); [lra|]. cbn [ug_bisect]. rewrite NV.
      cbn [bind fst snd one_k k_roots nth_error k_V k_g]. rewrite Vm, F. cbn [kxinsert ks_xs]. destruct (rlt_spec 3 4); [|lra]. cbn [ug_critical_loop ks_xs kx_root]. eexists. split; [reflexivity|]. cbn [k_g]. lra.
    + cbn [upper_g lower_g]. rewrite F4, F3. lra.
  - reflexivity.
Qed.
(** at reduced frequency zero an infinite eigenvalue becomes a critical root at speed zero *)
Theorem C193_zero_speed_refuted : exists analyze s r s', ug_oracle 1 analyze /\
  (forall kr p, exists num q, eigenpair 1 (ug_A kr 1 1 (fun _ _ => 1) (fun _ _ => (0, 0))) (ug_B (fun _ _ => 0)) num (0, 0) q /\ num <> (0, 0) /\ q 0%nat <> (0, 0) /\
     k_roots (analyze kr p) = [ug_root kr 1 num (0, 0)]) /\
  ug_scan analyze false 0 1 1 (mkKst [] []) = Ok s /\ ug_critical analyze (1/100) 5 s = Ok (true, Some r, s') /\ k_V r = 0.
Proof.
  set (an := fun (kr : R) (_ : option ksol) => mkKs kr [mkKr kr 0 0 0 false (0, 0)]).
  assert (Hz : forall kr, ug_root kr 1 (1, 0) (0, 0) = mkKr kr 0 0 0 false (0, 0)).
  { intros kr. assert (Hz : cnz (0, 0) = false) by (unfold cnz; simpl; destruct (Req_EM_T 0 0); [auto|congruence]). unfold ug_root. now rewrite Hz. }
  assert (Or : ug_oracle 1 an) by (intros kr p; repeat split; constructor; [reflexivity|constructor]).
  exists an, (mkKst [(0, an 0 None); (1, an 1 None)] [(0, mkKx (an 0 None) (an 0 None) 0 (Some (mkKr 0 0 0 0 false (0, 0))))]), (mkKr 0 0 0 0 false (0, 0)),
    (mkKst [(0, an 0 None); (1, an 1 None)] [(0, mkKx (an 0 None) (an 0 None) 0 (Some (mkKr 0 0 0 0 false (0, 0))))]).
  split; [exact Or|]. split; [|split; [|split; reflexivity]].
  - intros kr p. exists (1, 0), (fun _ => (1, 0)). split; [|split; [|split]].
    + intros i Hi. unfold cmv, ug_A, ug_B, cmul, cadd, cscal; simpl; unfold cmul, cadd, cscal; simpl. f_equal; field.
    + intros E; inversion E; lra.
    + intros E; inversion E; lra.
    + rewrite Hz. reflexivity.
  - unfold ug_scan. cbn [ks_sols]. rewrite usweep_loop by (lra || lia). cbn [bind usweep fst snd].
    replace (kr_val 0 1 1 1) with 0 by reflexivity. replace (kr_val 0 1 1 0) with 1 by (unfold kr_val; simpl; lra).
    change (an 0 (Some (an 1 None))) with (an 0 None).
    unfold ug_identify. cbn [map snd rev app]. unfold assert_. replace (length (k_roots (an 0 None))) with 1%nat by reflexivity. cbn [Nat.eqb negb loop bind app].
    assert (T : 0 < tol) by (unfold tol; lra).
    assert (N : kneglect [an 0 None; an 1 None] 0 = Ok true).
    { unfold kneglect. cbn [kmax]. unfold kget, an. cbn [k_roots nth_error bind k_g]. rewrite Rabs_R0. destruct (rlt_spec 0 0); [lra|]. destruct (rlt_spec 0 0); [lra|].
      destruct (rlt_spec 0 tol); [reflexivity|lra]. }
    rewrite N. cbn [bind nth app]. unfold an. cbn [k_ref]. rewrite Rabs_R0. destruct (rlt_spec 0 tol); [|lra].
    cbn [bind nth]. unfold ug_divergence, kget. cbn [k_roots nth_error bind k_bad negb andb k_g k_V kxinsert]. rewrite Rabs_R0. destruct (rlt_spec 0 tol); [|lra].
    cbn [bind ug_pairs]. unfold ug_process, ug_highest, ug_if_process, kget. cbn [k_roots nth_error bind k_bad k_g k_ref k_V hd_error negb app nth]. rewrite ?andb_false_r. cbn [bind andb app nth negb]. rewrite ?andb_false_r. cbn [bind andb]. rewrite ?andb_false_r. reflexivity.
Qed.

(** ** C194 *)
(** with matrices of the right size the PK pencil is the aeroelastic eigenproblem, and the root reported is its exponent *)
Theorem C194_pencil_partial : forall n rho v m k a A0 B0 A B kr num den x,
  rows A0 = (2 * n)%nat -> cols A0 = (2 * n)%nat -> rows B0 = (2 * n)%nat -> cols B0 = (2 * n)%nat ->
  (forall i j, ent A0 i j = (0, 0)) -> (forall i j, ent B0 i j = (0, 0)) ->
  pk_matrices n rho v m k a A0 B0 = Ok (A, B) -> den <> (0, 0) -> eigenpair (2 * n) (ent A) (ent B) num den x ->
  let r := pk_root kr v num den in
  k_kr r = kr /\ k_V r = v /\ pk_equation n rho v m k a (k_g r, k_om r) x /\
  (forall i, (i < n)%nat -> x (n + i)%nat = cmul (k_g r, k_om r) (x i)).
Proof.
  intros n rho v m k a A0 B0 A B kr num den x R1 C1 R2 C2 ZA ZB E Hd He.
  destruct (pk_pencil n rho v m k a A B A0 B0 num den x R1 C1 R2 C2 ZA ZB E Hd He) as (T & Q).
  unfold pk_root. rewrite (proj2 (cnz_true den) Hd). cbv zeta. cbn [k_kr k_V k_g k_om]. destruct (cdiv num den) as [p1 p2]. auto.
Qed.
(** the matrices of that size are accepted *)
Theorem C194_total : forall n rho v m k a A0 B0,
  rows A0 = (2 * n)%nat -> cols A0 = (2 * n)%nat -> rows B0 = (2 * n)%nat -> cols B0 = (2 * n)%nat ->
  exists AB, pk_matrices n rho v m k a A0 B0 = Ok AB.
Proof.
  intros n rho v m k a A0 B0 R1 C1 R2 C2. unfold pk_matrices.
  assert (X : forall M r0 c0 u, (r0 + n <= rows M)%nat -> (c0 + n <= cols M)%nat -> exists M', set_block M r0 c0 n u = Ok M' /\ rows M' = rows M /\ cols M' = cols M).
  { intros M r0 c0 u H1 H2. unfold set_block. rewrite (proj2 (Nat.leb_le n (rows M))), (proj2 (Nat.leb_le n (cols M))), (proj2 (Nat.leb_le _ _) H1), (proj2 (Nat.leb_le _ _) H2) by lia.
    eexists. split; [reflexivity|auto]. }
  destruct (X A0 0%nat (cols A0 - n)%nat ident) as (A1 & -> & Ra & Ca); [lia|lia|]. cbn [bind].
  match goal with |- context [set_block A1 ?r ?c n ?u] => destruct (X A1 r c u) as (A2 & -> & _ & _); [lia|lia|] end. cbn [bind].
  destruct (X B0 0%nat 0%nat ident) as (B1 & -> & Rb & Cb); [lia|lia|]. cbn [bind].
  match goal with |- context [set_block B1 ?r ?c n ?u] => destruct (X B1 r c u) as (B2 & -> & _ & _); [lia|lia|] end. cbn [bind]. eauto.
Qed.
(** but the solver passes matrices of size zero, so every analysis and every scan fails *)
Theorem C194_analysis_refuted : forall n rho m k a eigs kr v prev, (0 < n)%nat -> pk_analyze n rho m k a eigs kr v prev = Fault OutOfBounds.
Proof. intros n rho m k a eigs kr v prev Hn. unfold pk_analyze. cbv zeta. rewrite pk_matrices_empty by auto. reflexivity. Qed.
Theorem C194_scan_refuted : forall n rho m k a eigs vlo vhi nv klo khi nk, (0 < n)%nat ->
  pk_scan (pk_analyze n rho m k a eigs) vlo vhi nv klo khi nk = Fault OutOfBounds.
Proof.
  intros n rho m k a eigs vlo vhi nv klo khi nk Hn. unfold pk_scan. apply loop_fault. unfold pk_pass.
  match goal with |- bind (loop (S nv) ?f ?s) _ = _ => rewrite (loop_fault f s OutOfBounds) end; [reflexivity|].
  cbn [fst snd]. cbv zeta. rewrite C194_analysis_refuted by auto. reflexivity.
Qed.
Example C194_example : let z := mkMat 2 2 (fun _ _ => (0, 0)) in let m := fun _ _ : nat => 1 in let k := fun _ _ : nat => 4 in let a := fun _ _ : nat => (0, 0) in
  exists A B, pk_matrices 1 1 1 m k a z z = Ok (A, B) /\ eigenpair 2 (ent A) (ent B) (0, 2) (1, 0) (fun i => match i with O => (1, 0) | _ => (0, 2) end).
Proof.
  cbv zeta. eexists _, _. split; [reflexivity|]. intros [|[|i]] Hi; try lia; unfold cmv, ident; cbn; unfold ident, cmul, cadd, cscal; simpl; f_equal; field.
Qed.

(** ** C195 *)
(** whatever is inserted later, the first solution stored at a velocity stays *)
Theorem C195_first_kept : forall N h m, Forall (fun e => length (k_roots (snd e)) = N /\ Forall (fun r => 0 <= k_kr r) (k_roots (snd e))) h ->
  pk_history h [] = Ok m -> forall v, kfind v m = first_at v h.
Proof. intros N h m Hh E v. rewrite (history_first N h Hh [] m (Forall_nil _) E v). reflexivity. Qed.
Theorem C195_history_total : forall N h, Forall (fun e => length (k_roots (snd e)) = N /\ Forall (fun r => 0 <= k_kr r) (k_roots (snd e))) h ->
  exists m, pk_history h [] = Ok m.
Proof. intros N h Hh. apply (history_total N h Hh []). constructor. Qed.
(** so a scan over several reduced frequencies stores the roots of the highest one only *)
Theorem C195_scan_highest_partial : forall N analyze vlo vhi nv klo khi nk, pk_oracle N analyze -> vlo < vhi -> (0 < nv)%nat -> 0 <= khi -> (0 < nk)%nat ->
  exists m, pk_scan (fun k v p => Ok (analyze k v p)) vlo vhi nv klo khi nk = Ok m /\
  map fst m = map (fun i => vlo + INR i * ((vhi - vlo) / INR nv)) (seq 0 (S nv)) /\
  Forall (fun e => k_ref (snd e) = fst e /\ length (k_roots (snd e)) = N /\ Forall (fun r => k_kr r = khi) (k_roots (snd e))) m.
Proof.
  intros N analyze vlo vhi nv klo khi nk Ho Hv Hnv Hk Hn. exists (fst (psweep analyze vlo vhi nv khi (S nv))). split; [|split].
  - apply (scan_first N analyze Ho vlo vhi nv Hv khi Hk klo nk Hn).
  - rewrite psweep_keys. apply map_ext_in. intros i Hi. apply in_seq in Hi. unfold V_val. destruct (Nat.eqb_spec i nv) as [->|]; auto. field. apply not_0_INR. lia.
  - apply (psweep_stored N analyze Ho).
Qed.
(** not the roots whose own frequency matches the reduced frequency of the analysis *)
Theorem C195_closest_refuted : exists analyze m s r, pk_oracle 1 analyze /\
  pk_scan (fun k v p => Ok (analyze k v p)) 1 2 1 1 2 1 = Ok m /\ In (1, s) m /\ k_roots s = [r] /\
  (let gap q := Rabs (k_om q / k_V q - k_kr q) in
   exists q, k_roots (analyze 1 1 None) = [q] /\ gap q = 0 /\ gap r = 1).
Proof.
  set (an := fun (k v : R) (_ : option ksol) => mkKs v [mkKr k v 0 v false (0, 0)]).
  assert (Or : pk_oracle 1 an) by (intros k v p; repeat split; constructor; [split; reflexivity|constructor]).
  exists an, (fst (psweep an 1 2 1 2 2)), (an 2 1 None), (mkKr 2 1 0 1 false (0, 0)). split; [exact Or|]. split; [|split; [|split; [reflexivity|]]].
  - apply (scan_first 1 an Or 1 2 1 ltac:(lra) 2 ltac:(lra) 1 1 ltac:(lia)).
  - cbn [psweep fst snd app]. left. replace (V_val 1 2 1 0) with 1 by (unfold V_val; simpl; lra). reflexivity.
  - cbv zeta. exists (mkKr 1 1 0 1 false (0, 0)). split; [reflexivity|]. cbn [k_om k_V k_kr]. split.
    + replace (1 / 1 - 1) with 0 by field. apply Rabs_R0.
    + replace (1 / 1 - 2) with (- (1)) by field. rewrite Rabs_Ropp. apply Rabs_R1.
Qed.
Example C195_example : let s k := mkKs 1 [mkKr k 1 0 1 false (0, 0)] in let h := [(2, s 2); (1, s 1)] in
  Forall (fun e : R * ksol => length (k_roots (snd e)) = 1%nat /\ Forall (fun r => 0 <= k_kr r) (k_roots (snd e))) h /\ first_at 1 h = Some (s 2).
Proof.
  cbv zeta. split.
  - repeat constructor; simpl; lra.
  - simpl. destruct (Req_EM_T 1 1); [reflexivity|congruence].
Qed.

Print Assumptions C193_search. Print Assumptions C193_search_total. Print Assumptions C193_critical_partial. Print Assumptions C193_terminates.
Print Assumptions C193_lowest_refuted. Print Assumptions C193_converged_refuted. Print Assumptions C193_zero_speed_refuted.
Print Assumptions C194_pencil_partial. Print Assumptions C194_total. Print Assumptions C194_analysis_refuted. Print Assumptions C194_scan_refuted.
Print Assumptions C195_first_kept. Print Assumptions C195_history_total. Print Assumptions C195_scan_highest_partial. Print Assumptions C195_closest_refuted.
