(** C32, C39: the optimisation history file and the parametric line study. *)
From Coq Require Import String Ascii List Arith Lia Bool Reals Lra.
From Verif Require Import Base BaseLemmas Hist_Model Hist_Spec Hist_Proofs.
Import ListNotations.
Open Scope nat_scope.

(** C32: after any history of output calls that all write (which is how every optimiser interface
    of the library calls it), reading iteration [k] yields the design of the [k]-th call as it
    was printed, for every recorded [k]; reading an iteration that was not recorded stops with a
    failed assertion. *)
Theorem C32_history_round_trip_partial : forall F h c cs, printable F -> fresh h -> counts_fit h ->
  Forall (sized h) (c :: cs) -> Forall (fun d => c_w d = true) (c :: cs) ->
  exists h', run_outputs F h (c :: cs) = Ok h' /\
    (forall k d, nth_error (c :: cs) k = Some d ->
       exists ys, as_printed F (c_x d) ys /\
                  read_dv F h (h_file h') k (h_nvars h) = Ok ys) /\
    (forall k, nth_error (c :: cs) k = None ->
       read_dv F h (h_file h') k (h_nvars h) = Fault AssertFailed).
Proof.
  intros F h c cs HF Hf Hc Hs Hw.
  assert (Hw0 : c_w c = true) by now inversion Hw.
  destruct (run_fresh F h c cs Hf Hw0 Hs) as [h' [E [Ef _]]].
  exists h'. split; [exact E|]. split.
  - intros k d Hk. rewrite Ef.
    pose proof (rows_all F (c :: cs) 0 k Hw) as Hr. rewrite Hk in Hr.
    destruct d as [[[[it x] obj] fv] wr].
    assert (Hx : List.length x = h_nvars h).
    { rewrite Forall_forall in Hs. apply nth_error_In in Hk. apply Hs in Hk.
      destruct Hk as [A _]. exact A. }
    pose proof (read_row F h h (h_nvars h) (h_neq h + h_nineq h) (rows_from F 0 (c :: cs)) k
                  (0 + k) x obj fv HF eq_refl Hc Hx Hr) as G.
    simpl Nat.add in G at 1. rewrite Nat.eqb_refl in G. exact G.
  - intros k Hk. rewrite Ef. apply read_no_row; auto.
    pose proof (rows_all F (c :: cs) 0 k Hw) as Hr. rewrite Hk in Hr. exact Hr.
Qed.

(** C32, exact form: a design all of whose entries survive printing is read back unchanged. *)
Theorem C32_history_exact_partial : forall F h c cs k d, printable F -> fresh h -> counts_fit h ->
  Forall (sized h) (c :: cs) -> Forall (fun d => c_w d = true) (c :: cs) ->
  nth_error (c :: cs) k = Some d -> Forall (exact_print F) (c_x d) ->
  exists h', run_outputs F h (c :: cs) = Ok h' /\
    read_dv F h (h_file h') k (h_nvars h) = Ok (c_x d).
Proof.
  intros F h c cs k d HF Hf Hc Hs Hw Hk Hx.
  destruct (C32_history_round_trip_partial F h c cs HF Hf Hc Hs Hw) as [h' [E [H _]]].
  exists h'. split; auto. destruct (H k d Hk) as [ys [Hy Hr]]. rewrite Hr. f_equal.
  clear -Hx Hy. induction Hy; auto. inversion Hx; subst. f_equal; auto.
  unfold exact_print in H2. congruence.
Qed.

(** C32 is false at full strength: with the default precision the file cannot tell two designs
    apart, so one of them is read back wrong. *)
Theorem C32_precision_refuted : forall F, printable F -> six_digits F ->
  let h := mkHist 1 0 1 0 true [] [] in
  exists x k h', run_outputs F h [(0, [x], 0%R, [0%R], true)] = Ok h' /\
    k = 0 /\ read_dv F h (h_file h') k 1 <> Ok [x].
Proof.
  intros F HF [S1 S2] h.
  assert (G : forall x, exists h', run_outputs F h [(0, [x], 0%R, [0%R], true)] = Ok h' /\
             exists ys, as_printed F [x] ys /\ read_dv F h (h_file h') 0 1 = Ok ys).
  { intro x.
    destruct (C32_history_round_trip_partial F h (0, [x], 0%R, [0%R], true) [] HF) as [h' [E [H _]]].
    - repeat split.
    - unfold counts_fit, h, dec; simpl; lia.
    - constructor; [|constructor]. split; reflexivity.
    - constructor; [reflexivity|constructor].
    - exists h'. split; auto. destruct (H 0 _ eq_refl) as [ys Hy]. exists ys. exact Hy. }
  destruct (Req_EM_T (match parse F "1.23457e+06"%string with Some r => r | None => 0%R end)
              1234567) as [Eq|Ne].
  - destruct (G 1234568%R) as [h' [E [ys [A B]]]].
    exists 1234568%R, 0, h'. split; [exact E|]. split; [reflexivity|]. rewrite B.
    inversion A as [|? y ? ? P Q]; subst. inversion Q; subst. rewrite S2 in P. rewrite P in Eq.
    intro K. injection K as K. lra.
  - destruct (G 1234567%R) as [h' [E [ys [A B]]]].
    exists 1234567%R, 0, h'. split; [exact E|]. split; [reflexivity|]. rewrite B.
    inversion A as [|? y ? ? P Q]; subst. inversion Q; subst. rewrite S1 in P. rewrite P in Ne.
    intro K. injection K as K. lra.
Qed.

(** A call that does not write still advances the counter: from there on no recorded iteration
    can be read back. *)
Theorem C32_skipped_write_refuted : forall F h c cs j, printable F -> fresh h -> counts_fit h ->
  Forall (sized h) (c :: cs) -> c_w c = true ->
  (exists d, nth_error (c :: cs) j = Some d /\ c_w d = false) ->
  exists h', run_outputs F h (c :: cs) = Ok h' /\
    forall k, j <= k -> read_dv F h (h_file h') k (h_nvars h) = Fault AssertFailed.
Proof.
  intros F h c cs j HF Hf Hc Hs Hw0 [d [Hd Hdw]].
  destruct (run_fresh F h c cs Hf Hw0 Hs) as [h' [E [Ef _]]].
  exists h'. split; [exact E|]. intros k Hk. rewrite Ef.
  destruct (nth_error (rows_from F 0 (c :: cs)) k) as [r|] eqn:Er.
  - destruct (rows_gap F (c :: cs) 0 k r Er) as [m [it [x [obj [fv [wr [A [B [C D]]]]]]]]].
    specialize (D j d Hk Hd Hdw). subst r.
    assert (Hx : List.length x = h_nvars h).
    { rewrite Forall_forall in Hs. apply nth_error_In in A. apply Hs in A.
      destruct A as [A _]. exact A. }
    pose proof (read_row F h h (h_nvars h) (h_neq h + h_nineq h) (rows_from F 0 (c :: cs)) k
                  (0 + m) x obj fv HF eq_refl Hc Hx Er) as G.
    replace (0 + m =? k) with false in G by (symmetry; apply Nat.eqb_neq; simpl; lia). exact G.
  - apply read_no_row; auto.
Qed.

(** A file attached after the first output call gets no header, and nothing can be read from
    it. *)
Theorem C32_reopened_file_refuted : forall F h cs k, printable F -> h_iter h > 0 -> cs <> [] ->
  Forall (sized h) cs -> Forall (fun d => c_w d = true) cs ->
  exists h', run_outputs F (set_output_file h) cs = Ok h' /\
    read_dv F h (h_file h') k (h_nvars h) = Fault AssertFailed.
Proof.
  intros F h cs k HF Hi Hne Hs Hw.
  destruct (run_pos F cs (set_output_file h) Hi eq_refl Hs) as [h' [E [Ef _]]].
  exists h'. split; auto. rewrite Ef. simpl h_file. simpl h_iter.
  destruct cs as [|[[[[it x] obj] fv] wr] r]; [congruence|].
  inversion Hw as [|? ? W _]; subst. cbn [c_w] in W. subst wr.
  cbn [rows_from List.app]. unfold read_dv. cbn [getline fst].
  unfold read_header at 1. rewrite tokens_row by auto. cbn [token nth_error bind].
  assert (N : String.eqb (dec (h_iter h)) "n_dv" = false).
  { apply String.eqb_neq. intro K. pose proof (parse_dec (h_iter h)) as P. rewrite K in P.
    discriminate. }
  rewrite N. reflexivity.
Qed.

(** C39: the study shows, in order, the designs [dv1 + i/divs (dv2 - dv1)] for i = 0..divs, where
    [dv1] and [dv2] are what is read at the two iterations. *)
Theorem C39_line_study_samples : forall F h file it1 it2 divs dv1 dv2, divs > 0 ->
  read_dv F h file it1 (h_nvars h) = Ok dv1 -> read_dv F h file it2 (h_nvars h) = Ok dv2 ->
  exists h' shown, parametric_line_study F h file it1 it2 divs = Ok h' /\
    h_log h' = (h_log h ++ shown)%list /\ List.length shown = S divs /\
    (forall i e, nth_error shown i = Some e ->
       let x := snd (fst (fst e)) in
       List.length x = h_nvars h /\
       forall j, j < h_nvars h ->
         nth j x 0%R = (nth j dv1 0 + INR i / INR divs * (nth j dv2 0 - nth j dv1 0))%R) /\
    (exists e, nth_error shown 0 = Some e /\ snd (fst (fst e)) = dv1) /\
    (exists e, nth_error shown divs = Some e /\ snd (fst (fst e)) = dv2).
Proof.
  intros F h file it1 it2 divs dv1 dv2 Hd R1 R2.
  pose proof (read_dv_length _ _ _ _ _ _ R1) as L1.
  pose proof (read_dv_length _ _ _ _ _ _ R2) as L2.
  assert (Hdr : INR divs <> 0%R) by (apply not_0_INR; lia).
  destruct (line_loop_log F h dv1 dv2 divs Hd L1 L2) as [h' [E L]].
  exists h', (map (fun i => (h_iter h + i, line_sample dv1 dv2 i divs, 0%R,
                                       repeat 0%R (h_nineq h + h_neq h))) (seq 0 (S divs))).
  assert (Nth : forall i, i <= divs ->
    nth_error (map (fun i => (h_iter h + i, line_sample dv1 dv2 i divs, 0%R,
                        repeat 0%R (h_nineq h + h_neq h))) (seq 0 (S divs))) i =
    Some (h_iter h + i, line_sample dv1 dv2 i divs, 0%R, repeat 0%R (h_nineq h + h_neq h))).
  { intros i Hi. rewrite nth_error_map.
    rewrite (nth_error_nth' _ 0) by (rewrite seq_length; lia).
    rewrite seq_nth by lia. reflexivity. }
  assert (Smp : forall i j, j < h_nvars h -> nth j (line_sample dv1 dv2 i divs) 0%R =
     (nth j dv1 0 + INR i / INR divs * (nth j dv2 0 - nth j dv1 0))%R).
  { intros i j Hj. unfold line_sample.
    rewrite (nth_indep _ 0%R ((1 - 1 * INR i / (1 * INR divs)) * fst (0%R, 0%R) +
                               1 * INR i / (1 * INR divs) * snd (0%R, 0%R))%R)
      by (rewrite map_length, combine_length; lia).
    rewrite (map_nth (fun p => ((1 - 1 * INR i / (1 * INR divs)) * fst p +
                                 1 * INR i / (1 * INR divs) * snd p)%R)).
    rewrite combine_nth by lia. cbn [fst snd]. field. exact Hdr. }
  assert (Len : forall i, List.length (line_sample dv1 dv2 i divs) = h_nvars h)
    by (intro i; unfold line_sample; rewrite map_length, combine_length; lia).
  split.
  { unfold parametric_line_study. rewrite R1. cbn [bind]. rewrite R2. cbn [bind]. exact E. }
  split; [exact L|]. split; [now rewrite map_length, seq_length|]. split.
  { intros i e He. assert (Hi : i <= divs).
    { assert (i < List.length (seq 0 (S divs))).
      { rewrite <- (map_length (fun i => (h_iter h + i, line_sample dv1 dv2 i divs, 0%R,
                        repeat 0%R (h_nineq h + h_neq h)))).
        apply nth_error_Some. rewrite He. discriminate. }
      rewrite seq_length in H. lia. }
    rewrite (Nth i Hi) in He. injection He as <-. cbn [fst snd]. split; auto. }
  split.
  - eexists. split; [apply Nth; lia|]. cbn [fst snd].
    apply (nth_ext _ _ 0%R 0%R); [rewrite Len; auto|].
    intros j Hj. rewrite Len in Hj. rewrite Smp by auto. simpl INR.
    field. exact Hdr.
  - eexists. split; [apply Nth; lia|]. cbn [fst snd].
    apply (nth_ext _ _ 0%R 0%R); [rewrite Len; auto|].
    intros j Hj. rewrite Len in Hj. rewrite Smp by auto. field. exact Hdr.
Qed.

(** C39, objective part: what is shown is zero at every sample, whatever the user's objective. *)
Theorem C39_line_study_objective_refuted : forall F h file it1 it2 divs dv1 dv2
  (objective : list R -> R), divs > 0 ->
  read_dv F h file it1 (h_nvars h) = Ok dv1 -> read_dv F h file it2 (h_nvars h) = Ok dv2 ->
  objective dv1 <> 0%R ->
  exists h' shown e, parametric_line_study F h file it1 it2 divs = Ok h' /\
    h_log h' = (h_log h ++ shown)%list /\ nth_error shown 0 = Some e /\
    snd (fst (fst e)) = dv1 /\ snd (fst e) <> objective dv1.
Proof.
  intros F h file it1 it2 divs dv1 dv2 ob Hd R1 R2 Hob.
  destruct (C39_line_study_samples F h file it1 it2 divs dv1 dv2 Hd R1 R2)
    as [h' [sh [E [L [Ln [_ [[e [He Hx]] _]]]]]]].
  exists h', sh, e. repeat split; auto.
  pose proof (read_dv_length _ _ _ _ _ _ R1) as L1.
  pose proof (read_dv_length _ _ _ _ _ _ R2) as L2.
  destruct (line_loop_log F h dv1 dv2 divs Hd L1 L2) as [h2 [E2 L']].
  unfold parametric_line_study in E. rewrite R1, R2 in E. cbn [bind] in E.
  rewrite E2 in E. injection E as <-. rewrite L' in L. apply app_inv_head in L. subst sh.
  cbn in He. injection He as <-. cbn [fst snd]. auto.
Qed.

(** ** The hypotheses are met *)
Definition demo_fmt : numfmt :=
  mkNumfmt (fun v => if Req_EM_T v 2 then "2"%string else
                     if Req_EM_T v 1234567 then "1.23457e+06"%string else
                     if Req_EM_T v 1234568 then "1.23457e+06"%string else "1"%string)
           (fun s => if String.eqb s "2" then Some 2%R else Some 1%R).
Lemma demo_printable : printable demo_fmt.
Proof.
  intro v. unfold demo_fmt; cbn [fmt parse].
  destruct (Req_EM_T v 2); [|destruct (Req_EM_T v 1234567);
    [|destruct (Req_EM_T v 1234568)]]; simpl; (split; [discriminate|]);
    (split; [repeat split|]); (split; [lia|]); eexists; reflexivity.
Qed.
Definition demo_hist : hist := mkHist 2 0 1 0 true [] [].
Definition demo_calls : list call :=
  [ (0, [1%R; 2%R], 1%R, [1%R], true); (1, [2%R; 1%R], 2%R, [2%R], true) ].

Example C32_nonvacuous : printable demo_fmt /\ fresh demo_hist /\ counts_fit demo_hist /\
  Forall (sized demo_hist) demo_calls /\ Forall (fun d => c_w d = true) demo_calls /\
  six_digits demo_fmt /\ Forall (exact_print demo_fmt) [2%R; 1%R].
Proof.
  split; [apply demo_printable|]. split; [repeat split|].
  split; [unfold counts_fit, dec; simpl; lia|].
  split; [repeat constructor|]. split; [repeat constructor|]. split.
  - split; unfold demo_fmt; cbn [fmt];
      repeat match goal with |- context [Req_EM_T ?a ?b] => destruct (Req_EM_T a b) end;
      try reflexivity; lra.
  - repeat constructor; unfold exact_print, demo_fmt; cbn [fmt parse];
      repeat match goal with |- context [Req_EM_T ?a ?b] => destruct (Req_EM_T a b) end;
      try lra; reflexivity.
Qed.

Example C32_gap_nonvacuous : exists d,
  nth_error [ (0, [1%R; 2%R], 1%R, [1%R], true); (1, [2%R; 1%R], 2%R, [2%R], false);
              (1, [2%R; 1%R], 2%R, [2%R], true) ] 1 = Some d /\ c_w d = false.
Proof. eexists; split; reflexivity. Qed.

(** The whole round trip on a concrete two-iteration history, and a line study on it. *)
Example C39_nonvacuous : exists h', run_outputs demo_fmt demo_hist demo_calls = Ok h' /\
  read_dv demo_fmt demo_hist (h_file h') 0 2 = Ok [1%R; 2%R] /\
  read_dv demo_fmt demo_hist (h_file h') 1 2 = Ok [2%R; 1%R].
Proof.
  destruct C32_nonvacuous as [A [B [C [D [E _]]]]].
  destruct (C32_history_round_trip_partial demo_fmt demo_hist _ _ A B C D E) as [h' [R _]].
  exists h'. split; [exact R|].
  assert (X : forall k d, nth_error demo_calls k = Some d -> Forall (exact_print demo_fmt) (c_x d)
     -> read_dv demo_fmt demo_hist (h_file h') k 2 = Ok (c_x d)).
  { intros k d Hk He.
    destruct (C32_history_exact_partial demo_fmt demo_hist _ _ k d A B C D E Hk He)
      as [h2 [R2 G]]. change (run_outputs demo_fmt demo_hist demo_calls = Ok h2) in R2.
    change (run_outputs demo_fmt demo_hist demo_calls = Ok h') in R.
    rewrite R in R2. injection R2 as <-. exact G. }
  split.
  - apply (X 0 _ eq_refl). repeat constructor; unfold exact_print, demo_fmt; cbn [fmt parse];
      repeat match goal with |- context [Req_EM_T ?a ?b] => destruct (Req_EM_T a b) end;
      try lra; reflexivity.
  - apply (X 1 _ eq_refl). repeat constructor; unfold exact_print, demo_fmt; cbn [fmt parse];
      repeat match goal with |- context [Req_EM_T ?a ?b] => destruct (Req_EM_T a b) end;
      try lra; reflexivity.
Qed.

Print Assumptions C32_history_round_trip_partial.
Print Assumptions C32_history_exact_partial.
Print Assumptions C32_precision_refuted.
Print Assumptions C32_skipped_write_refuted.
Print Assumptions C32_reopened_file_refuted.
Print Assumptions C39_line_study_samples.
Print Assumptions C39_line_study_objective_refuted.
