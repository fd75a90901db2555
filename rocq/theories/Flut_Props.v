(** C25-C31, C66-C68: the flutter solvers. *)
From Coq Require Import Reals List Arith Bool Lra Lia Permutation Sorted.
From Verif Require Import Base BaseLemmas Flut_Model Flut_Spec Flut_Proofs Flut_Proofs2 Flut_Proofs3 Flut_Proofs4.
Import ListNotations.
Open Scope R_scope.

(** ** C25 *)
(** the sweep visits n+1 evenly spaced velocities in increasing order *)
Theorem C25_sweep : forall analyze N lo hi n s, good_oracle N analyze -> lo < hi -> (0 < n)%nat ->
  scan_for_roots analyze lo hi n (mkF [] []) = Ok s ->
  map fst (f_sols s) = map (fun i => lo + INR i * ((hi - lo) / INR n)) (seq 0 (S n)) /\
  map ref_val (map snd (f_sols s)) = map fst (f_sols s) /\
  Forall (good_sol N) (map snd (f_sols s)) /\
  identify_crossover_points (f_sols s) = Ok (f_xs s).
Proof.
  intros analyze N lo hi n s Ho Hlt Hn E. unfold scan_for_roots in E. cbn [f_sols] in E. rewrite sweep_loop in E by auto. cbn [bind] in E.
  destruct (sweep_good N analyze lo hi n (S n) Ho) as (G & Er). assert (K := sweep_keys analyze lo hi n (S n)).
  set (m := sweep analyze lo hi n (S n)) in *. clearbody m.
  destruct (identify_crossover_points _) eqn:Ei; cbn [bind] in E; [|discriminate]. injection E as <-. cbn [f_sols f_xs].
  rewrite K, Er. repeat split; auto.
  apply map_ext_in. intros i Hi. apply in_seq in Hi. unfold V_val. destruct (Nat.eqb_spec i n) as [->|]; auto.
  field. apply not_0_INR. lia.
Qed.
(** and never fails when the eigen-solver returns at least one root *)
Theorem C25_sweep_total : forall analyze N lo hi n, good_oracle N analyze -> (0 < N)%nat -> lo < hi -> (0 < n)%nat ->
  exists s, scan_for_roots analyze lo hi n (mkF [] []) = Ok s.
Proof.
  intros analyze N lo hi n Ho HN Hlt Hn. unfold scan_for_roots. cbn [f_sols]. rewrite sweep_loop by auto. cbn [bind].
  destruct (sweep_good N analyze lo hi n (S n) Ho) as (G & Er).
  set (m := fst (sweep analyze lo hi n (S n))) in *.
  assert (L : length (map snd m) = S n) by (rewrite <- (map_length ref_val), Er, map_length, seq_length; auto).
  destruct (map snd m) as [|s0 [|s1 t]] eqn:Em; simpl in L; try lia.
  destruct (identify_total m N s0 s1 t Em HN) as (xs & ->).
  - rewrite Em. eapply Forall_impl; [|exact G]. intros a Ha. apply Ha.
  - simpl. eauto.
Qed.

(** the crossovers are exactly the sign changes of the retained modes, plus one entry for each retained mode
    that is unstable at the lowest velocity; kept in order of velocity *)
Theorem C25_crossovers : forall m xs, identify_crossover_points m = Ok xs ->
  exists s0 t, map snd m = s0 :: t /\ keys_sorted xs /\
  forall k x, In (k, x) xs <->
    exists i, (i < length (sroots s0))%nat /\ retained (map snd m) i /\
      ((exists a b, consecutive (map snd m) a b /\ fast a b /\ crossing i a b k x) \/
       ((tol < Rabs (ref_val s0) \/ exists s1 t', t = s1 :: t' /\ tol < Rabs (ref_val s1)) /\
        0 < g i s0 /\ k = vel i s0 /\ x = mkX s0 s0 i None)).
Proof.
  intros m xs H. destruct (identify_iff m xs H) as (s0 & t & E & _ & S & C). exists s0, t. auto.
Qed.
(** none is recorded twice *)
Theorem C25_exactly_once : forall m xs, identify_crossover_points m = Ok xs -> NoDup (map ref_val (map snd m)) ->
  NoDup (map snd xs).
Proof. exact identify_nodup. Qed.
Theorem C25_total : forall m n s0 s1 t, map snd m = s0 :: s1 :: t -> (0 < n)%nat ->
  Forall (fun s => length (sroots s) = n) (map snd m) -> exists xs, identify_crossover_points m = Ok xs.
Proof. exact identify_total. Qed.

(** ** C26 *)
(** one trial: the velocity lies in the bracket, and the next bracket is inside this one and keeps the signs *)
Theorem C26_bracket_kept : forall b t gg, 0 <= t -> lower_g b <= 0 < upper_g b -> t < Rabs gg ->
  let b' := shrink b (new_V b) gg in
  (Rmin (lower_V b) (upper_V b) <= new_V b <= Rmax (lower_V b) (upper_V b)) /\
  lower_g b' <= 0 < upper_g b' /\
  (forall v, Rmin (lower_V b') (upper_V b') <= v <= Rmax (lower_V b') (upper_V b') ->
             Rmin (lower_V b) (upper_V b) <= v <= Rmax (lower_V b) (upper_V b)).
Proof.
  intros b t gg Ht Hb Hg b'. split; [apply (new_V_between b Hb)|]. split; [apply (shrink_ok b (new_V b) gg t Ht Hb Hg)|].
  intros v Hv. apply (shrink_nested b gg v Hb Hv).
Qed.
(** the whole search: success means within tolerance, every velocity analysed lies in the original bracket,
    and nothing already stored is lost *)
Theorem C26_search : forall analyze x t iters m ok s m', 0 <= t ->
  g (x_num x) (x_first x) <= 0 < g (x_num x) (x_second x) ->
  bisection_search analyze x t iters m = Ok (ok, s, m') ->
  (ok = true <-> exists sol, s = Some sol /\ Rabs (g (x_num x) sol) <= t) /\
  (s = None <-> iters = 0%nat) /\
  (forall sol, s = Some sol -> exists V, In (V, sol) m' /\ sol = analyze V (Some (x_first x)) /\ lo x <= V <= hi x) /\
  (forall V sol, In (V, sol) m' -> In (V, sol) m \/ (lo x <= V <= hi x /\ sol = analyze V (Some (x_first x)))) /\
  (forall e, In e m -> In e m').
Proof.
  intros analyze x t iters m ok s m' Ht Hs E. unfold bisection_search in E.
  destruct (get_root (x_first x) (x_num x)) as [rl|] eqn:E1; cbn [bind] in E; [|discriminate].
  destruct (get_root (x_second x) (x_num x)) as [ru|] eqn:E2; cbn [bind] in E; [|discriminate].
  apply get_root_g in E1, E2. destruct E1 as (E1 & _), E2 as (E2 & _). rewrite E1, E2 in Hs.
  assert (Em : iters = 0%nat -> s = None) by (intros ->; simpl in E; inversion E; auto).
  apply bisect_spec in E; auto. destruct E as (A1 & A2 & A3 & A4 & A5). cbn [lower_V upper_V] in *.
  split; [split; auto|split; [split; auto|split; [|split; auto]]].
  - intros (sol & -> & Hle). destruct ok; auto. destruct (A2 eq_refl) as [(_ & X)|(sol' & X & Hgt)]; [discriminate|].
    inversion X; subst. lra.
  - intros ->. destruct A3 as [(-> & _)|(V & sol & X & _)]; [auto|discriminate].
  - intros sol ->. destruct A3 as [(_ & X)|(V & sol' & X & Es & Hb & Hin)]; [discriminate|]. injection X as ->. exists V. auto.
Qed.
(** with a strict bracket and no stored velocity inside it the search meets no assertion and no division by 0 *)
Theorem C26_search_total : forall analyze N x t iters m, 0 <= t -> good_oracle N analyze -> (x_num x < N)%nat ->
  good_sol N (x_first x) -> good_sol N (x_second x) ->
  g (x_num x) (x_first x) < 0 < g (x_num x) (x_second x) -> ref_val (x_first x) <> ref_val (x_second x) ->
  (forall V, In V (map fst m) -> V <= lo x \/ hi x <= V) ->
  exists res, bisection_search analyze x t iters m = Ok res.
Proof.
  intros analyze N x t iters m Ht Ho Hn (L1 & _) (L2 & _) Hg HV Hm. unfold bisection_search.
  destruct (get_root_some N _ _ L1 Hn) as (r1 & E1). destruct (get_root_some N _ _ L2 Hn) as (r2 & E2). rewrite E1, E2. cbn [bind].
  apply get_root_g in E1, E2. destruct E1 as (E1 & _), E2 as (E2 & _). rewrite E1, E2 in Hg.
  apply bisect_total; auto.
  - intros V. destruct (Ho V (Some (x_first x))) as (_ & L & _). apply (get_root_some N); auto.
  - intros V Hin. cbn [lower_V upper_V]. unfold strictly_between. specialize (Hm V Hin). unfold lo, hi in Hm. lra.
Qed.

(** ** examples: one mode whose damping is a given function of the velocity *)
Definition one_mode (f : R -> R) (V : R) (_ : option fsol) : fsol := mkSol V [mkRoot V (f V) 1].
Lemma one_mode_good f : good_oracle 1 (one_mode f).
Proof. intros V p. repeat split. constructor; [reflexivity|constructor]. Qed.
Ltac rdec := repeat match goal with
  | |- context [rlt ?a ?b] => destruct (rlt_spec a b); try (exfalso; lra)
  | |- context [rle ?a ?b] => destruct (rle_spec a b); try (exfalso; lra)
  | |- context [Req_EM_T ?a ?b] => destruct (Req_EM_T a b); try (exfalso; lra)
  end.
Lemma scan_one f : tol < Rabs (f 1) -> scan_for_roots (one_mode f) 1 2 1 (mkF [] []) =
  Ok (mkF [(1, one_mode f 1 None); (2, one_mode f 2 None)]
          (let a := one_mode f 1 None in let b := one_mode f 2 None in
           let xs := if rle (f 1) 0 && rlt 0 (f 2) then [(1, mkX a b 0 None)]
                     else if rlt 0 (f 1) && rle (f 2) 0 then [(2, mkX b a 0 None)] else [] in
           if rlt 0 (f 1) then xinsert 1 (mkX a a 0 None) xs else xs)).
Proof.
  intros H1. assert (V0 : V_val 1 2 1 0 = 1) by (unfold V_val; simpl; lra). assert (V1 : V_val 1 2 1 1 = 2) by reflexivity.
  unfold scan_for_roots. cbn [f_sols]. rewrite sweep_loop by (lra || lia). cbn [bind sweep fst snd app]. rewrite V0, V1.
  change (one_mode f 2 (Some (one_mode f 1 None))) with (one_mode f 2 None).
  unfold identify_crossover_points. cbn [map snd]. unfold assert_. cbn [one_mode sroots length Nat.eqb negb loop bind app].
  unfold neglect. cbn [max_vals one_mode sroots get_root nth_error bind r_re r_im fst snd].
  assert (T : 0 < tol) by (unfold tol; lra). assert (B := big_neg).
  assert (M : forall x y, tol < x -> x <= y -> rlt y tol = false) by (intros x y P Q; destruct (rlt_spec y tol); auto; lra).
  assert (N : rlt (if rlt (if rlt 0 (Rabs (f 1)) then Rabs (f 1) else 0) (Rabs (f 2)) then Rabs (f 2) else if rlt 0 (Rabs (f 1)) then Rabs (f 1) else 0) tol = false).
  { apply (M (Rabs (f 1))); auto. destruct (rlt_spec 0 (Rabs (f 1))); [|lra]. destruct (rlt_spec (Rabs (f 1)) (Rabs (f 2))); lra. }
  rewrite N. destruct (rlt_spec (- big) 1); [|lra]. destruct (rlt_spec 1 1); [lra|]. destruct (rlt_spec 1 0); [lra|]. cbn [orb bind nth negb].
  cbn [process_pairs]. unfold process, process_initial. cbn [ref_val one_mode].
  assert (A1 : rlt tol (Rabs 1) = true) by (rewrite Rabs_R1; unfold tol; destruct (rlt_spec (1/100000) 1); auto; lra).
  rewrite A1. cbn [orb andb negb bind get_root nth_error sroots r_re r_V].
  assert (G : forall V, get_root (one_mode f V None) 0 = Ok (mkRoot V (f V) 1)) by reflexivity.
  rewrite !G. cbn [bind r_re r_V].
  destruct (rle_spec (f 1) 0), (rlt_spec 0 (f 2)), (rlt_spec 0 (f 1)), (rle_spec (f 2) 0); try lra; cbn [andb xinsert bind fst]; try reflexivity.
Qed.

Lemma bisect_S analyze first num t k b last m m1 r : upper_g b - lower_g b <> 0 ->
  sinsert (new_V b) (analyze (new_V b) (Some first)) m = Ok m1 -> get_root (analyze (new_V b) (Some first)) num = Ok r ->
  bisect analyze first num t (S k) b last m =
  if rle (Rabs (r_re r)) t then Ok (true, Some (analyze (new_V b) (Some first)), m1)
  else bisect analyze first num t k (shrink b (new_V b) (r_re r)) (Some (analyze (new_V b) (Some first))) m1.
Proof. intros H E1 E2. cbn [bisect]. destruct (Req_EM_T _ _); [contradiction|]. cbv zeta. rewrite E1. cbn [bind]. rewrite E2. reflexivity. Qed.
Lemma bisect_0 analyze first num t k b last m : upper_g b - lower_g b = 0 -> bisect analyze first num t (S k) b last m = Fault DivByZero.
Proof. intros H. cbn [bisect]. destruct (Req_EM_T _ _); [reflexivity|contradiction]. Qed.
(** a sweep with one crossover, refined to the exact root 3/2 in one iteration *)
Definition cross (V : R) : R := V - 3/2.
Definition cross_state : fstate := mkF [(1, one_mode cross 1 None); (2, one_mode cross 2 None)]
  [(1, mkX (one_mode cross 1 None) (one_mode cross 2 None) 0 None)].
Lemma cross_scan : scan_for_roots (one_mode cross) 1 2 1 (mkF [] []) = Ok cross_state.
Proof.
  rewrite scan_one.
  - unfold cross. rdec. reflexivity.
  - unfold cross, tol. rewrite Rabs_left by lra. lra.
Qed.
Example C25_C26_example : exists m',
  identify_crossover_points (f_sols cross_state) = Ok (f_xs cross_state) /\
  bisection_search (one_mode cross) (mkX (one_mode cross 1 None) (one_mode cross 2 None) 0 None) (1/100) 5 (f_sols cross_state)
   = Ok (true, Some (one_mode cross (3/2) None), m') /\
  find_critical_root (one_mode cross) (1/100) 5 cross_state =
   Ok (true, Some (mkRoot (3/2) (cross (3/2)) 1), mkF m' [(3/2, mkX (one_mode cross 1 None) (one_mode cross 2 None) 0 (Some (mkRoot (3/2) (cross (3/2)) 1)))]).
Proof.
  exists [(1, one_mode cross 1 None); (3/2, one_mode cross (3/2) None); (2, one_mode cross 2 None)].
  assert (NV : new_V (mkB 1 (cross 1) 2 (cross 2)) = 3/2) by (unfold new_V, cross; simpl; field).
  assert (Bs : bisection_search (one_mode cross) (mkX (one_mode cross 1 None) (one_mode cross 2 None) 0 None) (1/100) 5 (f_sols cross_state)
   = Ok (true, Some (one_mode cross (3/2) None), [(1, one_mode cross 1 None); (3/2, one_mode cross (3/2) None); (2, one_mode cross 2 None)])).
  { unfold bisection_search. cbn [x_first x_second x_num one_mode get_root sroots nth_error bind r_re ref_val].
    erewrite bisect_S; [| |rewrite NV; cbn [f_sols cross_state sinsert]; rdec; cbn [bind sinsert]; rdec; reflexivity|rewrite NV; reflexivity].
    - cbn [r_re]. destruct (rle_spec (Rabs (cross (3/2))) (1/100)) as [|H]; [rewrite NV; reflexivity|].
      exfalso. apply H. unfold cross. replace (3/2 - 3/2) with 0 by lra. rewrite Rabs_R0. lra.
    - cbn [upper_g lower_g]. unfold cross. lra. }
  split; [|split; [exact Bs|]].
  - destruct (C25_sweep (one_mode cross) 1 1 2 1 cross_state) as (_ & _ & _ & X); auto; [apply one_mode_good|lra|apply cross_scan].
  - unfold find_critical_root. cbn [f_xs cross_state length find_critical_loop x_root]. unfold refine. rewrite Bs. cbn [bind fst snd x_num one_mode get_root sroots nth_error r_V xinsert x_first x_second f_xs find_critical_loop x_root].
    reflexivity.
Qed.

(** ** C27 *)
(** true although the damping of the returned root is 1 and the tolerance 1/10 *)
Theorem C27_converged_refuted : exists analyze s r s',
  good_oracle 1 analyze /\ scan_for_roots analyze 1 2 1 (mkF [] []) = Ok s /\
  find_next_root analyze (1/10) 1 s = Ok (true, Some r, s') /\ find_critical_root analyze (1/10) 1 s = Ok (true, Some r, s') /\
  1/10 < Rabs (r_re r).
Proof.
  set (f := fun V : R => if rle V 1 then -1 else 1).
  assert (F1 : f 1 = -1) by (unfold f; rdec; auto). assert (F2 : f 2 = 1) by (unfold f; rdec; auto). assert (F3 : f (3/2) = 1) by (unfold f; rdec; auto).
  exists (one_mode f).
  set (a := one_mode f 1 None). set (b := one_mode f 2 None). set (c := one_mode f (3/2) None).
  assert (Bs : bisection_search (one_mode f) (mkX a b 0 None) (1/10) 1 [(1, a); (2, b)] = Ok (false, Some c, [(1, a); (3/2, c); (2, b)])).
  { unfold bisection_search, a, b. cbn [x_first x_second x_num one_mode get_root sroots nth_error bind r_re ref_val].
    assert (NV : new_V (mkB 1 (f 1) 2 (f 2)) = 3/2) by (unfold new_V; simpl; rewrite F1, F2; field).
    erewrite bisect_S; [| |rewrite NV; cbn [sinsert]; rdec; cbn [bind sinsert]; rdec; reflexivity|rewrite NV; reflexivity].
    - cbn [r_re]. destruct (rle_spec (Rabs (f (3/2))) (1/10)) as [H|H]; [exfalso; rewrite F3, Rabs_R1 in H; lra|]. cbn [bisect]. rewrite NV. reflexivity.
    - cbn [upper_g lower_g]. rewrite F1, F2. lra. }
  exists (mkF [(1, a); (2, b)] [(1, mkX a b 0 None)]), (mkRoot (3/2) (f (3/2)) 1), (mkF [(1, a); (3/2, c); (2, b)] [(3/2, mkX a b 0 (Some (mkRoot (3/2) (f (3/2)) 1)))]).
  split; [apply one_mode_good|]. split; [|split; [|split]].
  - rewrite scan_one; [rewrite F1, F2; rdec; reflexivity|]. rewrite F1, Rabs_left by lra. unfold tol. lra.
  - unfold find_next_root. cbn [take_open f_xs x_root]. unfold refine. cbn [f_sols]. rewrite Bs. reflexivity.
  - unfold find_critical_root. cbn [f_xs length find_critical_loop x_root]. unfold refine. cbn [f_sols]. rewrite Bs. reflexivity.
  - simpl. rewrite F3, Rabs_R1. lra.
Qed.
(** and with no iterations allowed a null pointer is dereferenced *)
Theorem C27_zero_iterations_refuted : exists analyze s, good_oracle 1 analyze /\ scan_for_roots analyze 1 2 1 (mkF [] []) = Ok s /\
  find_next_root analyze (1/10) 0 s = Fault NullDeref /\ find_critical_root analyze (1/10) 0 s = Fault NullDeref.
Proof.
  exists (one_mode cross), cross_state. split; [apply one_mode_good|]. split; [apply cross_scan|]. split; reflexivity.
Qed.
(** what holds: the root stored is the tracked mode of the last trial, and it is within tolerance whenever the
    search reported success *)
Theorem C27_converged_partial : forall analyze N x rest t iters m r s', good_oracle N analyze -> 0 <= t ->
  g (x_num x) (x_first x) <= 0 < g (x_num x) (x_second x) ->
  refine analyze x rest t iters m = Ok (r, s') ->
  exists ok sol m', bisection_search analyze x t iters m = Ok (ok, Some sol, m') /\ get_root sol (x_num x) = Ok r /\
    (ok = true <-> Rabs (r_re r) <= t) /\ lo x <= r_V r <= hi x.
Proof.
  intros analyze N x rest t iters m r s' Ho Ht Hg E.
  destruct (refine_spec analyze N Ho x rest t iters m r s' Ht Hg E) as (HR & _ & ok & sol & m' & Eb & Er & EV).
  exists ok, sol, m'. split; [auto|]. split; [auto|]. split; [|exact HR].
  destruct (C26_search _ _ _ _ _ _ _ _ Ht Hg Eb) as (Hok & _). rewrite Hok. apply get_root_g in Er. destruct Er as (Eg & _). rewrite <- Eg.
  split; [intros (s & X & H); inversion X; subst; auto|intros H; exists sol; auto].
Qed.

(** ** C28 *)
(** For every evenly spaced sweep from a non-negative velocity at which all retained modes are stable: the root
    reported as critical, after any earlier calls, is not above any root found then or by any later calls *)
Theorem C28_critical_lowest_partial : forall analyze N vlo vhi n s0 s1 s2 s3 t iters r,
  good_oracle N analyze -> (0 < n)%nat -> 0 <= vlo -> tol < (vhi - vlo) / INR n ->
  scan_for_roots analyze vlo vhi n (mkF [] []) = Ok s0 ->
  (forall i, (i < N)%nat -> retained (map snd (f_sols s0)) i -> g i (analyze vlo None) <= 0) ->
  calls analyze s0 s1 -> 0 <= t -> find_critical_root analyze t iters s1 = Ok (true, Some r, s2) -> calls analyze s2 s3 ->
  In r (found_roots s2) /\ forall q, In q (found_roots s3) -> r_V r <= r_V q.
Proof.
  intros analyze N vlo vhi n s0 s1 s2 s3 t iters r Ho Hn Hlo Hd Hs Hst C1 Ht E C2.
  assert (G1 : Forall (good_sol N) (map snd (f_sols s0))) by (apply (H1 N n analyze vlo vhi); auto).
  assert (G2 : StronglySorted Rlt (map ref_val (map snd (f_sols s0)))) by (apply (H2 N n analyze vlo vhi); auto).
  assert (G3 : forall a b, consecutive (map snd (f_sols s0)) a b -> fast a b) by (apply (H3 N n analyze vlo vhi); auto).
  assert (G4 : identify_crossover_points (f_sols s0) = Ok (f_xs s0)) by (apply (H4 N n analyze vlo vhi); auto).
  assert (G5 : forall s t i, map snd (f_sols s0) = s :: t -> (i < N)%nat -> retained (map snd (f_sols s0)) i -> g i s <= 0) by (apply (H5 N n analyze vlo vhi); auto).
  assert (I0 := xs0_inv _ N _ G1 G3 G4 G5). assert (Sg := xs0_sign _ N _ G1 G3 G4 G5).
  assert (I1 := calls_inv N n analyze vlo vhi s0 Ho Hn Hlo Hd Hs Hst _ _ C1 I0).
  destruct (critical_inv analyze N Ho _ Sg _ _ _ _ _ _ _ Ht I1 E) as (I2 & Hh).
  destruct (Hh eq_refl) as (k & x & rest & r0 & Ex & Er & Eq). injection Eq as ->.
  assert (L2 : low k (f_xs s2)) by (rewrite Ex in I2 |- *; apply (low_head _ N _ G1 G2 G3 G4 G5); auto).
  assert (Ek : k = r_V r0).
  { destruct I2 as (_ & _ & F). rewrite Ex in F. inversion F as [|? ? Fe _]; subst. unfold entry_ok in Fe. simpl in Fe. rewrite Er in Fe. apply Fe. }
  split.
  - unfold found_roots. rewrite Ex. simpl. rewrite Er. now left.
  - intros q Hq. assert (L3 := calls_low N n analyze vlo vhi s0 Ho Hn Hlo Hd Hs Hst k _ _ C2 I2 L2).
    unfold found_roots in Hq. apply in_flat_map in Hq. destruct Hq as (e & He & Hq). unfold low in L3. rewrite Forall_forall in L3.
    specialize (L3 e He). destruct (x_root (snd e)); [|destruct Hq]. destruct Hq as [<-|[]]. lra.
Qed.
Example C28_example :
  tol < (2 - 1) / INR 1 /\ scan_for_roots (one_mode cross) 1 2 1 (mkF [] []) = Ok cross_state /\
  (forall i, (i < 1)%nat -> g i (one_mode cross 1 None) <= 0) /\ calls (one_mode cross) cross_state cross_state /\
  exists r s2, find_critical_root (one_mode cross) (1/100) 5 cross_state = Ok (true, Some r, s2) /\ r_V r = 3/2.
Proof.
  split; [unfold tol; simpl; lra|]. split; [apply cross_scan|]. split.
  { intros [|i] Hi; [|lia]. unfold g, one_mode, cross. simpl. lra. }
  split; [constructor|]. destruct C25_C26_example as (m' & _ & _ & E). rewrite E. eexists _, _. split; reflexivity.
Qed.
(** the search for the critical root always terminates *)
Theorem C28_terminates : forall analyze t iters s, find_critical_root analyze t iters s <> Fault OutOfFuel.
Proof.
  intros. apply critical_terminates. assert (X := n_open_le (f_xs s)). lia.
Qed.
(** a mode that is unstable at the lowest velocity gives a bracket whose two ends coincide, and the search
    divides 0 by 0 *)
Theorem C28_unstable_start_refuted : exists analyze s, good_oracle 1 analyze /\
  scan_for_roots analyze 1 2 1 (mkF [] []) = Ok s /\ f_xs s <> [] /\
  find_critical_root analyze (1/10) 5 s = Fault DivByZero /\ find_next_root analyze (1/10) 5 s = Fault DivByZero.
Proof.
  set (f := fun _ : R => 1).
  exists (one_mode f), (mkF [(1, one_mode f 1 None); (2, one_mode f 2 None)] [(1, mkX (one_mode f 1 None) (one_mode f 1 None) 0 None)]).
  split; [apply one_mode_good|]. split; [|split; [discriminate|]].
  - rewrite scan_one; [unfold f; rdec; reflexivity|]. unfold f. rewrite Rabs_R1. unfold tol. lra.
  - unfold find_critical_root, find_next_root. cbn [f_xs length find_critical_loop x_root take_open]. unfold refine, bisection_search.
    cbn [x_first x_second x_num one_mode get_root sroots nth_error bind r_re ref_val f_sols].
    rewrite bisect_0 by (unfold f; simpl; lra). split; reflexivity.
Qed.

(** ** C29 *)
(** whatever the scores and their comparison (NaN included) the roots are only permuted *)
Theorem C29_sort_permutes : forall (A S : Type) (score : A -> A -> S) (gt : S -> S -> bool) (zero : S) prev l l',
  sort A S score gt zero prev l = Ok l' -> Permutation l l'.
Proof. exact sort_perm. Qed.
Theorem C29_sort_total : forall (A S : Type) (score : A -> A -> S) (gt : S -> S -> bool) (zero : S) prev l,
  length l = length prev -> l <> [] -> exists l', sort A S score gt zero prev l = Ok l'.
Proof. exact sort_total. Qed.
(** each position holds the root matching the previous root there at least as well as every root after it *)
Theorem C29_best_match : forall (A : Type) (score : A -> A -> R) (d : A) prev l l', (forall p r, 0 <= score p r) ->
  sort A R score (fun a b => rlt b a) 0 prev l = Ok l' ->
  forall i j, (i <= j < length l')%nat -> score (nth i prev d) (nth j l' d) <= score (nth i prev d) (nth i l' d).
Proof. intros A score d prev l l' Hp E i j Hij. apply (sort_greedy A score Hp d prev l l' E); lia. Qed.
Example C29_example : sort nat nat (fun a b => if Nat.eqb a b then 1 else 0)%nat (fun a b => Nat.ltb b a) 0%nat [1;2;3]%nat [3;1;2]%nat = Ok [1;2;3]%nat.
Proof. reflexivity. Qed.

(** ** C30 *)
(** the reported velocity sensitivity is the derivative of every branch V(p) that stays on the boundary
    Re root = 0, and the total derivative of the damping vanishes for it *)
Theorem C30_time_domain : forall (re : R -> R -> R) (V : R -> R) p v (deig_dp deig_dV : cpx),
  diff2 re p (V p) (fst deig_dp) (fst deig_dV) -> derivable_pt_lim V p v -> (forall t, re t (V t) = 0) -> fst deig_dV <> 0 ->
  v = fst (td_sensitivity deig_dp deig_dV) /\ fst (snd (td_sensitivity deig_dp deig_dV)) = 0.
Proof.
  intros re V p v a b HD HV H0 Hb. split.
  - apply (implicit_derivative re V p _ _ v HD HV H0 Hb).
  - unfold td_sensitivity; simpl. field. auto.
Qed.
Theorem C30_time_domain_unique : forall deig_dp deig_dV : cpx, fst deig_dV <> 0 ->
  forall v, fst (cadd deig_dp (cscal v deig_dV)) = 0 <-> v = fst (td_sensitivity deig_dp deig_dV).
Proof.
  intros a b Hb v. unfold td_sensitivity; simpl. split; intros H.
  - apply (Rmult_eq_reg_r (fst b)); auto. field_simplify; auto. lra.
  - subst. field. auto.
Qed.
Example C30_example : exists re V v (deig_dp deig_dV : cpx), diff2 re 1 (V 1) (fst deig_dp) (fst deig_dV) /\ derivable_pt_lim V 1 v /\
  (forall t, re t (V t) = 0) /\ fst deig_dV <> 0.
Proof.
  exists (fun p v => 2 * v - 6 * p), (fun p => 3 * p), 3, (-6, 1), (2, 5). repeat split.
  - intros eps He. exists 1. split; [lra|]. intros h k _ _. simpl.
    replace (2 * (3 * 1 + k) - 6 * (1 + h) - (2 * (3 * 1) - 6 * 1) - -6 * h - 2 * k) with 0 by ring. rewrite Rabs_R0.
    apply Rmult_le_pos; [lra|]. generalize (Rabs_pos h), (Rabs_pos k). lra.
  - replace 3 with (0 * 1 + 3 * 1) at 1 by ring.
    apply (derivable_pt_lim_mult (fun _ => 3) (fun t => t) 1 0 1); [apply (derivable_pt_lim_const 3 1)|apply derivable_pt_lim_id].
  - intros; ring.
  - simpl. lra.
Qed.

(** U-g method: with g = im/re, the derivative of g along (p, kr(p)) vanishes, and the reported value is the
    derivative of V = 1/sqrt(re) *)
Theorem C30_ug_damping : forall (eig deig_dp deig_dkr : cpx), fst eig <> 0 ->
  snd deig_dkr / fst eig - snd eig / (fst eig ^ 2) * fst deig_dkr <> 0 ->
  let root_sens := snd (ug_sensitivity eig deig_dp deig_dkr) in
  (snd root_sens * fst eig - snd eig * fst root_sens) / (fst eig ^ 2) = 0.
Proof.
  intros [er ei] [ar ai] [br bi] He Hk. unfold ug_sensitivity, cadd, cscal in *. cbn [fst snd] in *. cbv zeta. cbn [fst snd].
  set (dg := bi / er - ei / er ^ 2 * br) in *. set (v := - (ai / er - ei / er ^ 2 * ar) / dg).
  transitivity ((ai / er - ei / er ^ 2 * ar) + v * dg).
  - unfold dg. field. auto.
  - unfold v. field. repeat split; auto.
Qed.
Theorem C30_ug_velocity : forall (re : R -> R) p (eig deig_dp deig_dkr : cpx), 0 < re p -> fst eig = re p ->
  derivable_pt_lim re p (fst (snd (ug_sensitivity eig deig_dp deig_dkr))) ->
  derivable_pt_lim (fun t => / sqrt (re t)) p (snd (fst (ug_sensitivity eig deig_dp deig_dkr))).
Proof.
  intros re p eig a b Hp He HD. set (rs := snd (ug_sensitivity eig a b)) in *.
  assert (E : snd (fst (ug_sensitivity eig a b)) = - (1/2) * fst rs / Rpower (fst eig) (3/2)) by reflexivity. rewrite E, He.
  assert (Hs : 0 < sqrt (re p)) by (apply sqrt_lt_R0; auto).
  assert (Hr : Rpower (re p) (3/2) = re p * sqrt (re p)).
  { replace (3/2) with (1 + /2) by lra. rewrite Rpower_plus, Rpower_1, Rpower_sqrt by auto. reflexivity. }
  rewrite Hr.
  assert (D := derivable_pt_lim_comp re sqrt p _ _ HD (derivable_pt_lim_sqrt (re p) Hp)).
  assert (D2 := derivable_pt_lim_div (fun _ => 1) (comp sqrt re) p 0 _ (derivable_pt_lim_const 1 p) D ltac:(unfold comp; lra)).
  replace (- (1/2) * fst rs / (re p * sqrt (re p))) with
     ((0 * comp sqrt re p - / (2 * sqrt (re p)) * fst rs * 1) / Rsqr (comp sqrt re p)).
  - apply (dpl_ext ((fun _ => 1) / comp sqrt re)%F); auto. intros t. unfold div_fct, comp. unfold Rdiv. ring.
  - unfold comp. rewrite Rsqr_sqrt by lra. field. split; lra.
Qed.
Example C30_ug_example : let eig := (4, 0) in let dp := (1, 2) in let dkr := (3, 1) in
  fst eig <> 0 /\ snd dkr / fst eig - snd eig / (fst eig ^ 2) * fst dkr <> 0 /\
  derivable_pt_lim (fun t => 4 + (t - 1) * fst (snd (ug_sensitivity eig dp dkr))) 1 (fst (snd (ug_sensitivity eig dp dkr))).
Proof.
  cbv zeta. set (c := fst (snd (ug_sensitivity (4, 0) (1, 2) (3, 1)))). cbn [fst snd]. split; [lra|]. split; [lra|].
  intros e He. exists (mkposreal 1 Rlt_0_1). intros h Hh _. replace ((4 + (1 + h - 1) * c - (4 + (1 - 1) * c)) / h - c) with 0 by (field; auto). rewrite Rabs_R0. auto.
Qed.

(** ** C31 *)
(** the identity blocks that _initialize_matrix_sensitivity_for_param writes do not change the result *)
Theorem C31_identity_blocks : forall n k c m dk dc dm eig xl xr,
  (forall i, (i < n + n)%nat -> rmv (n + n) (block_A n k c) xr i = cmul eig (rmv (n + n) (block_B n m) xr i)) ->
  eig_sens (n + n) (block_A n k c) (block_B n m) (block_A n dk dc) (block_B n dm) eig xl xr =
  eig_sens (n + n) (block_A n k c) (block_B n m) (true_dA n dk dc) (true_dB n dm) eig xl xr.
Proof. intros. apply identity_blocks. intros. apply H. lia. Qed.
(** true_dA and true_dB are the derivatives of the assembled matrices *)
Theorem C31_true_derivative : forall n (k c m : R -> rmat) p dk dc dm,
  (forall i j, derivable_pt_lim (fun t => k t i j) p (dk i j)) -> (forall i j, derivable_pt_lim (fun t => c t i j) p (dc i j)) ->
  (forall i j, derivable_pt_lim (fun t => m t i j) p (dm i j)) -> forall i j,
  derivable_pt_lim (fun t => block_A n (k t) (c t) i j) p (true_dA n dk dc i j) /\
  derivable_pt_lim (fun t => block_B n (m t) i j) p (true_dB n dm i j).
Proof.
  intros n k c m p dk dc dm Hk Hc Hm i j. unfold block_A, block_B, true_dA, true_dB.
  destruct (Nat.ltb i n); [split; [destruct (Nat.ltb j n); [|destruct (Nat.eqb j (i + n))]|destruct (Nat.eqb i j)]; apply derivable_pt_lim_const|].
  destruct (Nat.ltb j n).
  - split; [apply derivable_pt_lim_opp, Hk|apply derivable_pt_lim_const].
  - split; [apply derivable_pt_lim_opp, Hc|apply Hm].
Qed.
(** so the computed number is the derivative of the eigenvalue *)
Theorem C31_eigenvalue_derivative : forall n (k c m : R -> rmat) (eig : R -> cpx) (x : R -> cvec) xl p dk dc dm deig dx,
  (forall i j, derivable_pt_lim (fun t => k t i j) p (dk i j)) -> (forall i j, derivable_pt_lim (fun t => c t i j) p (dc i j)) ->
  (forall i j, derivable_pt_lim (fun t => m t i j) p (dm i j)) ->
  cderiv eig p deig -> (forall j, (j < n + n)%nat -> cderiv (fun t => x t j) p (dx j)) ->
  (forall t i, (i < n + n)%nat -> rmv (n + n) (block_A n (k t) (c t)) (x t) i = cmul (eig t) (rmv (n + n) (block_B n (m t)) (x t) i)) ->
  (forall j, (j < n + n)%nat -> csum (n + n) (fun i => cmul (conj (xl i)) (block_A n (k p) (c p) i j, 0)) =
                          cmul (eig p) (csum (n + n) (fun i => cmul (conj (xl i)) (block_B n (m p) i j, 0)))) ->
  cdot (n + n) xl (rmv (n + n) (block_B n (m p)) (x p)) <> c0 ->
  eig_sens (n + n) (block_A n (k p) (c p)) (block_B n (m p)) (block_A n dk dc) (block_B n dm) (eig p) xl (x p) = deig.
Proof.
  intros n k c m eig x xl p dk dc dm deig dx Hk Hc Hm He Hx HR HL Hn.
  rewrite C31_identity_blocks by (intros; apply HR; auto).
  apply (eig_derivative (n + n) (fun t => block_A n (k t) (c t)) (fun t => block_B n (m t)) eig x xl p (true_dA n dk dc) (true_dB n dm) deig dx); auto;
  intros i j _ _; apply (C31_true_derivative n k c m p dk dc dm); auto.
Qed.
(** one degree of freedom: s^2 + (3+t) s + (2+t) = 0 has the root -1 for every t; right vector (1,-1), left (2,1) at t=0 *)
Example C31_example : let k := fun t (_ _ : nat) => 2 + t in let c := fun t (_ _ : nat) => 3 + t in let m := fun (_ : R) (_ _ : nat) => 1 in
  let x := fun (_ : R) i => match i with O => (1, 0) | _ => (-1, 0) end in let xl := fun i => match i with O => (2, 0) | _ => (1, 0) end in
  (forall t i, (i < 1 + 1)%nat -> rmv (1 + 1) (block_A 1 (k t) (c t)) (x t) i = cmul (-1, 0) (rmv (1 + 1) (block_B 1 (m t)) (x t) i)) /\
  (forall j, (j < 1 + 1)%nat -> csum (1 + 1) (fun i => cmul (conj (xl i)) (block_A 1 (k 0) (c 0) i j, 0)) =
                          cmul (-1, 0) (csum (1 + 1) (fun i => cmul (conj (xl i)) (block_B 1 (m 0) i j, 0)))) /\
  cdot (1 + 1) xl (rmv (1 + 1) (block_B 1 (m 0)) (x 0)) <> c0.
Proof.
  cbv zeta. split; [|split].
  - intros t [|[|i]] Hi; try lia; unfold rmv, block_A, block_B; simpl; unfold cmul, cadd, cscal; simpl; f_equal; ring.
  - intros [|[|j]] Hj; try lia; unfold block_A, block_B; simpl; unfold cmul, cadd, conj; simpl; f_equal; ring.
  - unfold cdot, rmv, block_B; simpl. unfold cmul, cadd, cscal, conj, c0; simpl. intros E. inversion E. lra.
Qed.

(** ** C66 *)
Theorem C66_null_arguments_refuted : dXdp_used true false = Fault NullDeref.
Proof. reflexivity. Qed.
Theorem C66_null_arguments_partial : forall dXdp dXdV, dXdp = false \/ dXdV = true ->
  dXdp_used dXdp dXdV = Ok (if dXdp then Given else ZeroVec, if dXdV then Given else ZeroVec).
Proof. intros [|] [|] [H|H]; try discriminate; reflexivity. Qed.

(** ** C67 *)
(** success means an unstable root within tolerance that is the critical one of a stored solution *)
Theorem C67_no_tracking_sound : forall analyze t fuel vlo vhi n iters r m,
  critical_without_tracking analyze t fuel vlo vhi n iters = Ok (true, r, m) ->
  exists root V s, r = Some root /\ 0 < r_re root <= t /\ In (V, s) m /\ get_critical_root t s = Some root.
Proof.
  intros analyze t fuel vlo vhi n iters r m. unfold critical_without_tracking, assert_. cbv zeta. destruct (if rlt 0 vlo then _ else _); [|discriminate].
  destruct (march _ _ _ _ _ _ _ _) as [[[[[lV ls] uV] us] m1]|]; cbn [bind fst snd]; [|discriminate].
  destruct (Nat.eqb _ _); [discriminate|]. destruct iters as [|k]; [discriminate|].
  destruct (crit t ls) as [lr|]; [|discriminate]. destruct (crit t us) as [ur|]; [|discriminate]. intros E.
  assert (X : exists root, r = Some root).
  { clear - E. revert E. generalize (S k). intros j. revert lV uV lr ur us m1. induction j as [|j IH]; intros lV uV lr ur us m1; cbn [refine_nt]; [discriminate|].
    cbv zeta. destruct (Req_EM_T _ _); [discriminate|]. destruct (sinsert _ _ _); cbn [bind]; [|discriminate]. destruct (crit t _) as [q|]; [|discriminate].
    destruct (_ && _); [intros E; inversion E; eauto|]. destruct (rlt _ 0); apply IH. }
  destruct X as (root & ->). apply refine_nt_sound in E. destruct E as (H & V & s & H'). exists root, V, s. tauto.
Qed.
(** the march ends within the requested number of velocity steps *)
Theorem C67_march_terminates : forall analyze t vlo vhi n s0, (0 < n)%nat -> vlo < vhi ->
  exists r, march analyze t n ((vhi - vlo) / INR n) vhi vlo s0 [(vlo, s0)] = Ok r.
Proof.
  intros analyze t vlo vhi n s0 Hn Hlt. assert (X := march_total analyze t n vlo vhi Hn Hlt 0 n s0 [(vlo, s0)] Hn ltac:(lia)).
  replace (vlo + INR 0 * ((vhi - vlo) / INR n)) with vlo in X by (simpl; ring). apply X. constructor; [simpl; lra|constructor].
Qed.
(** trial velocities stay in the bracket while the upper damping is at least 1e-4 ... *)
Theorem C67_trial_inside_partial : forall b, lower_g b <= 0 -> 1/10000 <= upper_g b -> lower_V b < upper_V b ->
  lower_V b < damped_V b <= upper_V b.
Proof. exact damped_inside. Qed.
(** ... and leave it otherwise *)
Theorem C67_trial_outside_refuted : forall b, lower_g b <= 0 -> 0 < upper_g b < 1/10000 -> lower_V b < upper_V b ->
  upper_V b < damped_V b.
Proof.
  intros b Hg Hu HV. unfold damped_V. assert (0 < 1/2 * (upper_V b - lower_V b) / (upper_g b - lower_g b) * (1/10000 - upper_g b)); [|lra].
  apply Rmult_lt_0_compat; [|lra]. apply Rdiv_lt_0_compat; lra.
Qed.
(** ... so every velocity that is analysed lies in the requested range, when the tolerance is at least 1e-4,
    no trial has exactly zero critical damping, and on the marching grid no critical root is marginally
    unstable (damping between zero and the tolerance) *)
Theorem C67_velocities_in_range_partial : forall analyze t fuel vlo vhi n iters b r m,
  (0 < n)%nat -> 0 < vlo < vhi -> 1/10000 <= t ->
  (forall V p q, get_critical_root t (analyze V p) = Some q -> r_re q <> 0) ->
  (forall i p q, (i < n)%nat -> get_critical_root t (analyze (vlo + INR i * ((vhi - vlo) / INR n)) p) = Some q ->
     r_re q <= 0 \/ t <= r_re q) ->
  critical_without_tracking analyze t fuel vlo vhi n iters = Ok (b, r, m) ->
  forall V s, In (V, s) m -> vlo <= V <= vhi.
Proof.
  intros analyze t fuel vlo vhi n iters b r m Hn (H0 & Hlt) Ht Hz Hg. unfold critical_without_tracking, assert_. cbv zeta.
  destruct (rlt_spec 0 vlo) as [_|]; [|lra]. destruct (Nat.eqb _ 0) eqn:Es; [|discriminate]. apply Nat.eqb_eq in Es.
  destruct (march _ _ _ _ _ _ _ _) as [[[[[lV ls] uV] us] m1]|] eqn:Em; cbn [bind fst snd]; [|discriminate].
  replace vlo with (vlo + INR 0 * ((vhi - vlo) / INR n)) in Em at 2 by (simpl; ring).
  eapply (march_keys analyze t n vlo vhi Hn Hlt) in Em; auto.
  2:{ exists None. f_equal. simpl; ring. }
  2:{ intros V s [H|[]]. inversion H; subst. lra. }
  destruct Em as (i & Hi & HlV & HuV & A1 & A2 & A3 & (pl & Hls) & (pu & Hus) & A4).
  destruct (Nat.eqb (n_unstable t (sroots us)) 0) eqn:Eu; [intros E; inversion E; subst; auto|]. apply Nat.eqb_neq in Eu.
  destruct iters as [|k]; [intros E; inversion E; subst; auto|].
  destruct (crit t ls) as [lr|] eqn:El; [|discriminate]. destruct (crit t us) as [ur|] eqn:Er; [|discriminate].
  intros E V s H. unfold crit in *.
  pose proof (proj2 (crit_of_unstable t ls lr El) A3) as L1. pose proof (proj1 (crit_of_unstable t us ur Er) Eu) as U1.
  assert (L2 : r_re lr <= 0). { rewrite Hls, HlV in El. destruct (Hg i pl lr Hi El); lra. }
  eapply (refine_nt_keys analyze t Ht Hz (S k) lV uV lr ur us m1 b r m) in H; [|lra|exact L2|lra|exact E].
  destruct H as [H|H]; [eauto|lra].
Qed.
(** a system whose critical damping is V - 3/2 meets these hypotheses on [1, 3] with one marching step *)
Example C67_range_example : let analyze := fun V (_ : option fsol) => mkSol V [mkRoot V (if Req_EM_T V (3/2) then 1 else V - 3/2) 1] in
  (forall V p q, get_critical_root (1/1000) (analyze V p) = Some q -> r_re q <> 0) /\
  (forall i p q, (i < 1)%nat -> get_critical_root (1/1000) (analyze (1 + INR i * ((3 - 1) / INR 1)) p) = Some q ->
     r_re q <= 0 \/ 1/1000 <= r_re q) /\
  exists m, critical_without_tracking analyze (1/1000) 1 1 3 1 0 = Ok (false, Some (mkRoot 3 (3/2) 1), m).
Proof.
  intros analyze.
  assert (C : forall V p q, get_critical_root (1/1000) (analyze V p) = Some q -> r_re q = if Req_EM_T V (3/2) then 1 else V - 3/2).
  { intros V p q. unfold get_critical_root, analyze. cbn [sroots crit_scan r_im]. destruct (rle_spec 0 1); [|lra]. cbn [r_re r_V].
    destruct (_ && _); intros E; inversion E; reflexivity. }
  split; [|split].
  - intros V p q H. apply C in H. rewrite H. destruct (Req_EM_T V (3/2)); lra.
  - intros i p q Hi H. apply C in H. assert (i = 0)%nat as -> by lia. rewrite H. simpl INR. destruct (Req_EM_T _ _); lra.
  - unfold critical_without_tracking, analyze. cbv zeta. cbn [sroots n_unstable r_im r_re].
    destruct (rlt_spec 0 1); [|lra]. destruct (rle_spec 0 1); [|lra]. destruct (Req_EM_T 1 (3/2)); [lra|].
    destruct (rle_spec (1/1000) (1 - 3/2)); [lra|]. cbn [andb Nat.add Nat.eqb assert_ march]. cbv zeta. cbn [sroots n_unstable r_im r_re].
    replace (1 + (3 - 1) / INR 1) with 3 by (simpl; field). destruct (Req_EM_T 3 (3/2)); [lra|].
    cbn [sinsert]. destruct (rlt_spec 3 1); [lra|]. destruct (rlt_spec 1 3); [|lra]. cbn [bind].
    destruct (rle_spec 0 1); [|lra]. destruct (rle_spec (1/1000) (3 - 3/2)); [|lra]. cbn [andb Nat.add Nat.eqb negb orb bind fst snd].
    cbn [sroots n_unstable r_im r_re]. destruct (rle_spec 0 1); [|lra]. destruct (rle_spec (1/1000) (3 - 3/2)); [|lra]. cbn [andb Nat.add Nat.eqb].
    unfold crit, get_critical_root. cbn [sroots crit_scan r_im r_re r_V]. destruct (rle_spec 0 1); [|lra].
    destruct (rle_spec (1/1000) (3 - 3/2)); [|lra]. destruct (rlt_spec 0 3); [|lra]. cbn [andb].
    replace (3 - 3/2) with (3/2) by field. eexists. reflexivity.
Qed.
Example C67_example : let b := mkB 1 (-1) 2 (1/2) in lower_g b <= 0 /\ 1/10000 <= upper_g b /\ lower_V b < upper_V b.
Proof. simpl. lra. Qed.
Example C67_outside_example : let b := mkB 1 (-1) 2 (1/20000) in lower_g b <= 0 /\ 0 < upper_g b < 1/10000 /\ lower_V b < upper_V b.
Proof. simpl. lra. Qed.

(** ** C68 *)
(** the critical root of a solution is the unstable root with the lowest velocity, or, without unstable roots,
    the one with the largest damping value; only the upper half plane counts *)
Theorem C68_critical_root : forall t s,
  match get_critical_root t s with
  | None => Forall (fun r => ~ upper r) (sroots s)
  | Some q => In q (sroots s) /\ upper q /\
      ((unstable t q /\ forall r, In r (sroots s) -> unstable t r -> r_V q <= r_V r) \/
       ((forall r, In r (sroots s) -> ~ unstable t r) /\ forall r, In r (sroots s) -> upper r -> r_re r <= r_re q))
  end.
Proof.
  intros t s. unfold get_critical_root. destruct (crit_scan_spec t (sroots s) [] None None) as (u & b & Hu & Hb & ->); [constructor|constructor|].
  cbn [app] in *. destruct u as [q|]; simpl in Hu.
  - destruct Hu as (A & B & C). split; [auto|]. split; [apply B|]. left. auto.
  - rewrite Forall_forall in Hu. destruct b as [q|]; simpl in Hb; [|exact Hb]. destruct Hb as (A & B & C). split; [auto|]. split; [auto|]. right. auto.
Qed.
Theorem C68_count : forall t l, n_unstable t l = length (filter (fun r => rle 0 (r_im r) && rle t (r_re r)) l).
Proof. exact n_unstable_spec. Qed.
Example C68_example : get_critical_root 1 (mkSol 5 [mkRoot 5 2 (-1); mkRoot 5 3 1; mkRoot 4 2 1]) = Some (mkRoot 4 2 1).
Proof. unfold get_critical_root. do 4 (cbn [sroots crit_scan r_im r_re r_V andb]; rdec). all: reflexivity. Qed.

Print Assumptions C25_sweep. Print Assumptions C25_sweep_total. Print Assumptions C25_crossovers. Print Assumptions C25_exactly_once. Print Assumptions C25_total.
Print Assumptions C26_bracket_kept. Print Assumptions C26_search. Print Assumptions C26_search_total.
Print Assumptions C27_converged_refuted. Print Assumptions C27_zero_iterations_refuted. Print Assumptions C27_converged_partial.
Print Assumptions C28_critical_lowest_partial. Print Assumptions C28_terminates. Print Assumptions C28_unstable_start_refuted.
Print Assumptions C29_sort_permutes. Print Assumptions C29_sort_total. Print Assumptions C29_best_match.
Print Assumptions C30_time_domain. Print Assumptions C30_time_domain_unique. Print Assumptions C30_ug_damping. Print Assumptions C30_ug_velocity.
Print Assumptions C31_identity_blocks. Print Assumptions C31_true_derivative. Print Assumptions C31_eigenvalue_derivative.
Print Assumptions C66_null_arguments_refuted. Print Assumptions C66_null_arguments_partial.
Print Assumptions C67_no_tracking_sound. Print Assumptions C67_march_terminates. Print Assumptions C67_trial_inside_partial. Print Assumptions C67_trial_outside_refuted. Print Assumptions C67_velocities_in_range_partial.
Print Assumptions C68_critical_root. Print Assumptions C68_count.
