(** Proofs about the optimisation history file. *)
From Coq Require Import String Ascii List Arith Lia Bool Reals Lra DecimalString DecimalNat Decimal.
From Verif Require Import Base BaseLemmas Hist_Model Hist_Spec.
Import ListNotations.
Open Scope string_scope.
Open Scope nat_scope.

(** ** Strings *)
Lemma app_assoc_s : forall a b c : string, a ++ b ++ c = (a ++ b) ++ c.
Proof. induction a; intros; simpl; [reflexivity|]. now rewrite IHa. Qed.

Lemma join_app : forall l1 l2, join (l1 ++ l2)%list = join l1 ++ join l2.
Proof. induction l1; intros; simpl; [reflexivity|]. now rewrite IHl1, app_assoc_s. Qed.

Lemma is_delim_space : forall c, is_space c = false -> is_delim c = false.
Proof.
  intros c H; unfold is_space, is_delim in *; cbv zeta in *.
  apply orb_false_iff in H as [H1 H2]. rewrite H1. simpl.
  destruct (nat_of_ascii c =? 9) eqn:E; auto.
  apply Nat.eqb_eq in E. rewrite E in H2. discriminate.
Qed.

Lemma trim_left_spaces : forall n s, trim_left (spaces n ++ s) = trim_left s.
Proof. induction n; intros; simpl; auto. Qed.

Lemma trim_left_id : forall t r, t <> "" -> no_space t -> trim_left (t ++ r) = t ++ r.
Proof. destruct t; intros; [congruence|]. simpl in *. destruct H0 as [E _]. now rewrite E. Qed.

Lemma trim_right_id : forall t, no_space t -> trim_right t = t.
Proof.
  induction t; intros; simpl in *; auto.
  destruct H as [E H]. rewrite IHt by auto. destruct t; auto. now rewrite E.
Qed.

Lemma trim_right_app : forall a t, t <> "" -> no_space t -> trim_right (a ++ t) = a ++ t.
Proof.
  induction a; intros; simpl; [apply trim_right_id; auto|].
  rewrite IHa by auto. destruct (a0 ++ t) eqn:E; auto.
  exfalso. destruct a0; simpl in E; [congruence|discriminate].
Qed.

Lemma split_spaces : forall n s, split_on true (spaces n ++ s) = split_on true s.
Proof. induction n; intros; simpl; auto. Qed.

Lemma split_token_end : forall t b, t <> "" -> no_space t -> split_on b t = [t].
Proof.
  induction t; intros; [congruence|]. simpl in *. destruct H0 as [E H0].
  rewrite (is_delim_space _ E). destruct t; [reflexivity|].
  rewrite IHt by (auto; discriminate). reflexivity.
Qed.

Lemma split_token : forall t b n s, t <> "" -> no_space t ->
  split_on b (t ++ spaces (S n) ++ s) = t :: split_on true s.
Proof.
  induction t; intros; [congruence|]. simpl in H0. destruct H0 as [E H0].
  cbn [append split_on]. rewrite (is_delim_space _ E). destruct t.
  - cbn [append]. change (spaces (S n) ++ s) with (String " " (spaces n ++ s)).
    cbn. now rewrite split_spaces.
  - rewrite IHt by (auto; discriminate). reflexivity.
Qed.

Definition good (w : nat) (s : string) : Prop := s <> "" /\ no_space s /\ String.length s < w.

Lemma setw_good : forall w s, good w s -> exists n, setw w s = spaces (S n) ++ s.
Proof.
  intros w s [_ [_ H]]. unfold setw. exists (w - String.length s - 1).
  f_equal. f_equal. lia.
Qed.

Lemma split_line : forall w l s0 b, s0 <> "" -> no_space s0 -> Forall (good w) l ->
  split_on b (s0 ++ join (map (setw w) l)) = s0 :: l.
Proof.
  induction l; intros; simpl.
  - replace (s0 ++ "") with s0; [apply split_token_end; auto|].
    clear; induction s0; simpl; congruence.
  - inversion H1; subst. destruct (setw_good w a H4) as [n En]. rewrite En.
    rewrite <- app_assoc_s. rewrite split_token by auto. f_equal.
    destruct H4 as [A [B C]]. apply IHl; auto.
Qed.

Lemma join_last : forall w l a, Forall (good w) (l ++ [a])%list ->
  exists p, join (map (setw w) (l ++ [a])%list) = p ++ a.
Proof.
  intros. rewrite map_app, join_app. simpl.
  assert (good w a) by (rewrite Forall_app in H; destruct H as [_ H]; now inversion H).
  destruct (setw_good w a H0) as [n En]. rewrite En.
  exists (join (map (setw w) l) ++ spaces (S n)).
  replace ((spaces (S n) ++ a) ++ "") with (spaces (S n) ++ a); [now rewrite app_assoc_s|].
  generalize (spaces (S n) ++ a). clear. induction s; simpl; congruence.
Qed.

Lemma tokens_line : forall w0 w l s0, s0 <> "" -> no_space s0 -> Forall (good w) l ->
  tokens (setw w0 s0 ++ join (map (setw w) l)) = s0 :: l.
Proof.
  intros w0 w l s0 H H0 H1. unfold tokens, trim, setw at 1.
  rewrite <- app_assoc_s, trim_left_spaces, trim_left_id by auto.
  assert (trim_right (s0 ++ join (map (setw w) l)) = s0 ++ join (map (setw w) l)).
  { destruct l as [|a l'] using rev_ind.
    - simpl. replace (s0 ++ "") with s0 by (clear; induction s0; simpl; congruence).
      apply trim_right_id; auto.
    - destruct (join_last _ _ _ H1) as [p Ep]. rewrite Ep, app_assoc_s.
      rewrite Forall_app in H1. destruct H1 as [_ H1]. inversion H1; subst.
      destruct H4 as [A [B C]]. apply trim_right_app; auto. }
  rewrite H2. apply split_line; auto.
Qed.

(** ** Decimal numbers *)
Lemma no_space_uint : forall d, no_space (NilEmpty.string_of_uint d).
Proof. induction d; simpl; auto. Qed.

Lemma to_uint_nonnil : forall n, Nat.to_uint n <> Nil.
Proof.
  intros n H. pose proof (Unsigned.to_of (Nat.to_uint n)) as E.
  rewrite Unsigned.of_to, H in E. unfold unorm in E. simpl in E. discriminate.
Qed.

Lemma dec_good : forall n, dec n <> "" /\ no_space (dec n).
Proof.
  intro n. unfold dec, NilZero.string_of_uint.
  pose proof (to_uint_nonnil n). pose proof (no_space_uint (Nat.to_uint n)).
  destruct (Nat.to_uint n); try congruence; simpl in *; split; try discriminate; tauto.
Qed.

Lemma parse_dec : forall n, parse_nat (dec n) = Some n.
Proof.
  intro n. unfold parse_nat, dec. rewrite NilZero.usu by apply to_uint_nonnil.
  simpl. now rewrite Unsigned.of_to.
Qed.

(** ** Lines *)
Lemma tokens_header : forall name n, name <> "" -> no_space name ->
  String.length (dec n) < 10 ->
  tokens (setw 10 name ++ setw 10 (dec n)) = [name; dec n].
Proof.
  intros. replace (setw 10 (dec n)) with (join (map (setw 10) [dec n])).
  - apply tokens_line; auto. constructor; [|constructor].
    destruct (dec_good n). repeat split; auto.
  - simpl. generalize (setw 10 (dec n)). clear. induction s; simpl; congruence.
Qed.

Lemma read_header_ok : forall name n, name <> "" -> no_space name ->
  String.length (dec n) < 10 ->
  read_header name (setw 10 name ++ setw 10 (dec n)) = Ok n.
Proof.
  intros. unfold read_header. rewrite tokens_header by auto. simpl.
  rewrite String.eqb_refl. simpl. unfold to_nat. now rewrite parse_dec.
Qed.

Lemma map_setw_fmt : forall F l,
  map (fun v => setw 20 (fmt F v)) l = map (setw 20) (map (fmt F) l).
Proof. intros; now rewrite map_map. Qed.

Lemma tokens_row : forall F it x obj fv, printable F ->
  tokens (row F it x obj fv) = (dec it :: map (fmt F) x ++ fmt F obj :: map (fmt F) fv)%list.
Proof.
  intros F it x obj fv HF. unfold row. rewrite !map_setw_fmt.
  replace (join (map (setw 20) (map (fmt F) x)) ++ setw 20 (fmt F obj) ++
           join (map (setw 20) (map (fmt F) fv)))
    with (join (map (setw 20) (map (fmt F) x ++ fmt F obj :: map (fmt F) fv)%list))
    by (rewrite map_app, join_app; reflexivity).
  destruct (dec_good it). apply tokens_line; auto.
  assert (G : forall v, good 20 (fmt F v))
    by (intro v; destruct (HF v) as [A [B [C _]]]; repeat split; auto).
  apply Forall_app; split; [|constructor; auto]; apply Forall_forall; intros s Hs;
    apply in_map_iff in Hs as [v [<- _]]; auto.
Qed.

(** ** Rows of a file *)
Fixpoint rows_from (F : numfmt) (k : nat) (cs : list call) : list string :=
  match cs with
  | [] => []
  | (it, x, obj, fv, wr) :: r =>
      if wr then row F k x obj fv :: rows_from F (S k) r else rows_from F (S k) r
  end.

Lemma run_pos : forall F cs h, h_iter h > 0 -> h_open h = true -> Forall (sized h) cs ->
  exists h', run_outputs F h cs = Ok h' /\
    h_file h' = (h_file h ++ rows_from F (h_iter h) cs)%list /\
    h_nvars h' = h_nvars h /\ h_neq h' = h_neq h /\ h_nineq h' = h_nineq h /\
    h_open h' = true /\ h_iter h' = h_iter h + List.length cs.
Proof.
  intros F cs; induction cs as [|[[[[it x] obj] fv] wr] r IH]; intros h Hk Ho Hs.
  - exists h. simpl. rewrite app_nil_r. repeat split; auto.
  - inversion Hs as [|? ? [S1 S2] Hs']; subst. cbn [c_x c_f] in S1, S2.
    cbn [run_outputs]. unfold output_wrapper, output.
    rewrite (proj2 (Nat.eqb_eq _ _) S1), (proj2 (Nat.eqb_eq _ _) S2), Ho.
    cbn [assert_ negb orb].
    destruct (h_iter h =? 0) eqn:Ek; [apply Nat.eqb_eq in Ek; lia|].
    destruct wr; cbn [negb orb bind h_nvars h_neq h_nineq h_iter h_open h_file].
    + match goal with |- context [run_outputs F ?hh r] => destruct (IH hh) as [h' Hh'] end;
        cbn [h_iter h_open]; auto; try lia.
      exists h'. destruct Hh' as [E [Ef [A [B [C [D I]]]]]].
      cbn [h_nvars h_neq h_nineq h_iter h_open h_file] in *.
      rewrite E. cbn [rows_from]. repeat split; auto.
      * rewrite Ef. rewrite <- app_assoc. reflexivity.
      * rewrite I. simpl. lia.
    + match goal with |- context [run_outputs F ?hh r] => destruct (IH hh) as [h' Hh'] end;
        cbn [h_iter h_open]; auto; try lia.
      exists h'. destruct Hh' as [E [Ef [A [B [C [D I]]]]]].
      cbn [h_nvars h_neq h_nineq h_iter h_open h_file] in *.
      rewrite E. cbn [rows_from]. repeat split; auto.
      rewrite I. simpl. lia.
Qed.

Lemma run_fresh : forall F h c cs, fresh h -> c_w c = true -> Forall (sized h) (c :: cs) ->
  exists h', run_outputs F h (c :: cs) = Ok h' /\
    h_file h' = (header h (h_nvars h) (h_neq h + h_nineq h) ++ rows_from F 0 (c :: cs))%list /\
    h_nvars h' = h_nvars h /\ h_neq h' = h_neq h /\ h_nineq h' = h_nineq h.
Proof.
  intros F h [[[[it x] obj] fv] wr] cs [Hi [Ho Hf]] Hw Hs. cbn [c_w] in Hw. subst wr.
  inversion Hs as [|? ? [S1 S2] Hs']; subst. cbn [c_x c_f] in S1, S2.
  cbn [run_outputs]. unfold output_wrapper, output.
  rewrite (proj2 (Nat.eqb_eq _ _) S1), (proj2 (Nat.eqb_eq _ _) S2), Ho, Hi, Hf.
  cbn [assert_ negb orb bind Nat.eqb h_nvars h_neq h_nineq h_iter h_open h_file].
  match goal with |- context [run_outputs F ?hh cs] => destruct (run_pos F cs hh) as [h' Hh'] end;
    cbn [h_iter h_open]; auto.
  destruct Hh' as [E [Ef [A [B [C _]]]]].
  cbn [h_nvars h_neq h_nineq h_iter h_open h_file] in *.
  exists h'. rewrite E. repeat split; auto.
  rewrite Ef, S1, S2. cbn [List.app rows_from]. rewrite <- app_assoc. reflexivity.
Qed.

Lemma run_fresh_unwritten : forall F h c cs, fresh h -> c_w c = false ->
  Forall (sized h) (c :: cs) ->
  exists h', run_outputs F h (c :: cs) = Ok h' /\ h_file h' = rows_from F 1 cs.
Proof.
  intros F h [[[[it x] obj] fv] wr] cs [Hi [Ho Hf]] Hw Hs. cbn [c_w] in Hw. subst wr.
  inversion Hs as [|? ? [S1 S2] Hs']; subst. cbn [c_x c_f] in S1, S2.
  cbn [run_outputs]. unfold output_wrapper, output.
  rewrite (proj2 (Nat.eqb_eq _ _) S1), (proj2 (Nat.eqb_eq _ _) S2), Ho, Hi, Hf.
  cbn [assert_ negb orb bind Nat.eqb h_nvars h_neq h_nineq h_iter h_open h_file].
  match goal with |- context [run_outputs F ?hh cs] => destruct (run_pos F cs hh) as [h' Hh'] end;
    cbn [h_iter h_open]; auto.
  destruct Hh' as [E [Ef _]]. cbn [h_iter h_file] in *. exists h'. rewrite E. split; auto.
Qed.

(** ** Reading *)
Lemma skip_nth : forall f n, fst (getline (skip_lines n f)) =
  match nth_error f n with Some l => l | None => "" end.
Proof.
  intros f n; revert f; induction n; intros f.
  - destruct f; reflexivity.
  - cbn [skip_lines]. rewrite IHn. destruct f; [|reflexivity].
    cbn. now destruct n.
Qed.

Lemma read_reduce : forall F h hdr nx nf rows iter xlen,
  h_neq hdr = h_neq h -> counts_fit hdr ->
  read_dv F h (header hdr nx nf ++ rows)%list iter xlen =
  assert_ (h_nvars hdr =? xlen)
   (let ts := tokens (match nth_error rows iter with Some l => l | None => "" end) in
    assert_ (h_nvars hdr + 1 <? List.length ts)
    (t0 <- token ts 0 ;;
     it_num <- to_nat t0 ;;
     assert_ (it_num =? iter)
     ((fix go (n i : nat) : outcome (list R) :=
         match n with
         | O => Ok []
         | S k => t <- token ts (i + 1) ;; r <- to_real F t ;; rs <- go k (S i) ;; Ok (r :: rs)
         end) (h_nvars hdr) 0))).
Proof.
  intros F h hdr nx nf rows iter xlen Hneq [C1 [C2 C3]].
  unfold read_dv. unfold header. cbn [List.app getline fst snd].
  rewrite (read_header_ok "n_dv") by (auto; try discriminate; simpl; tauto).
  cbn [bind]. destruct (h_nvars hdr =? xlen); [|reflexivity]. cbn [assert_].
  rewrite (read_header_ok "n_eq") by (auto; try discriminate; simpl; tauto).
  cbn [bind]. rewrite Hneq, Nat.eqb_refl. cbn [assert_].
  rewrite (read_header_ok "n_ineq") by (auto; try discriminate; simpl; tauto).
  cbn [bind]. rewrite skip_nth. rewrite (Nat.add_1_r iter). reflexivity.
Qed.

Lemma go_reads : forall F (HF : printable F) pre x post,
  exists ys, as_printed F x ys /\
  (fix go (n i : nat) : outcome (list R) :=
         match n with
         | O => Ok []
         | S k => t <- token (pre ++ map (fmt F) x ++ post)%list (i + 1) ;;
                  r <- to_real F t ;; rs <- go k (S i) ;; Ok (r :: rs)
         end) (List.length x) (List.length pre - 1) = Ok ys \/ pre = [].
Proof.
  intros F HF pre x; revert pre; induction x as [|v x IH]; intros pre post.
  - exists []. left. split; [constructor|reflexivity].
  - destruct (IH (pre ++ [fmt F v])%list post) as [ys [[H1 H2]|H]].
    + destruct (HF v) as [_ [_ [_ [w Hw]]]].
      destruct pre as [|p pre]; [exists []; now right|].
      exists (w :: ys). left. split; [constructor; auto|].
      cbn [List.length map List.app].
      assert (Et : token (p :: pre ++ fmt F v :: map (fmt F) x ++ post)%list
                (S (List.length pre) - 1 + 1) = Ok (fmt F v)).
      { unfold token. replace (S (List.length pre) - 1 + 1) with (List.length (p :: pre) + 0)
          by (simpl; lia).
        change (p :: pre ++ fmt F v :: map (fmt F) x ++ post)%list
          with ((p :: pre) ++ fmt F v :: map (fmt F) x ++ post)%list.
        rewrite nth_error_app2 by lia.
        replace (List.length (p :: pre) + 0 - List.length (p :: pre)) with 0 by lia. reflexivity. }
      rewrite Et. cbn [bind]. unfold to_real at 1. rewrite Hw. cbn [bind].
      replace (S (S (List.length pre) - 1)) with (List.length ((p :: pre) ++ [fmt F v])%list - 1)
        by (rewrite app_length; simpl; lia).
      rewrite <- app_assoc in H2. cbn [List.app] in H2. cbn [List.app]. rewrite H2. reflexivity.
    + destruct pre; discriminate.
Qed.

Lemma read_row : forall F h hdr nx nf rows iter j x obj fv, printable F ->
  h_neq hdr = h_neq h -> counts_fit hdr -> List.length x = h_nvars hdr ->
  nth_error rows iter = Some (row F j x obj fv) ->
  if j =? iter
  then exists ys, as_printed F x ys /\
       read_dv F h (header hdr nx nf ++ rows)%list iter (h_nvars hdr) = Ok ys
  else read_dv F h (header hdr nx nf ++ rows)%list iter (h_nvars hdr) = Fault AssertFailed.
Proof.
  intros F h hdr nx nf rows iter j x obj fv HF Hn Hc Hx Hr.
  pose proof (read_reduce F h hdr nx nf rows iter (h_nvars hdr) Hn Hc) as E.
  rewrite Hr in E. cbv zeta in E. rewrite tokens_row in E by auto.
  rewrite Nat.eqb_refl in E. cbn [assert_] in E.
  match type of E with context [assert_ (?a <? ?b) _] =>
    assert (L : (a <? b) = true) by
      (apply Nat.ltb_lt; cbn [List.length]; rewrite app_length; cbn [List.length];
       rewrite !map_length; lia) end.
  rewrite L in E. cbn [assert_ token nth_error bind] in E.
  unfold to_nat in E. rewrite parse_dec in E. cbn [bind] in E.
  destruct (j =? iter) eqn:Ej; cbn [assert_] in E; [|exact E].
  destruct (go_reads F HF [dec j] x (fmt F obj :: map (fmt F) fv)) as [ys [[H1 H2]|H]];
    [|discriminate].
  exists ys. split; auto. rewrite E. rewrite Hx in H2. exact H2.
Qed.

Lemma read_no_row : forall F h hdr nx nf rows iter xlen,
  h_neq hdr = h_neq h -> counts_fit hdr -> nth_error rows iter = None ->
  read_dv F h (header hdr nx nf ++ rows)%list iter xlen = Fault AssertFailed.
Proof.
  intros. rewrite read_reduce by auto. rewrite H1.
  destruct (h_nvars hdr =? xlen); [|reflexivity]. cbn [assert_].
  cbv zeta. change (tokens "") with [""].
  cbn [List.length].
  replace (h_nvars hdr + 1 <? 1) with false by (symmetry; apply Nat.ltb_ge; lia). reflexivity.
Qed.

Lemma rows_all : forall F cs k i, Forall (fun c => c_w c = true) cs ->
  nth_error (rows_from F k cs) i =
  match nth_error cs i with
  | Some (_, x, obj, fv, _) => Some (row F (k + i) x obj fv)
  | None => None
  end.
Proof.
  intros F cs; induction cs as [|[[[[it x] obj] fv] wr] r IH]; intros k i H.
  - now destruct i.
  - inversion H as [|? ? Hw H']; subst. cbn [c_w] in Hw. subst wr. cbn [rows_from].
    destruct i; cbn [nth_error]; [now rewrite Nat.add_0_r|].
    rewrite IH by auto. now rewrite Nat.add_succ_r.
Qed.

Lemma rows_gap : forall F cs k i r, nth_error (rows_from F k cs) i = Some r ->
  exists m it x obj fv wr, nth_error cs m = Some (it, x, obj, fv, wr) /\
    r = row F (k + m) x obj fv /\ i <= m /\
    (forall j c, j <= i -> nth_error cs j = Some c -> c_w c = false -> i < m).
Proof.
  intros F cs; induction cs as [|[[[[it x] obj] fv] wr] rest IH]; intros k i r H.
  - destruct i; discriminate.
  - cbn [rows_from] in H. destruct wr.
    + destruct i.
      * cbn in H. injection H as H. exists 0, it, x, obj, fv, true.
        rewrite Nat.add_0_r. repeat split; auto.
        intros j c Hj Hc Hw. assert (j = 0) by lia. subst. cbn in Hc. injection Hc as <-.
        discriminate.
      * cbn in H. destruct (IH _ _ _ H) as [m [it' [x' [o' [f' [w' [A [B [C D]]]]]]]]].
        exists (S m), it', x', o', f', w'. rewrite Nat.add_succ_r. repeat split; auto; try lia.
        intros j c Hj Hc Hw. destruct j; [cbn in Hc; injection Hc as <-; discriminate|].
        cbn in Hc. specialize (D j c ltac:(lia) Hc Hw). lia.
    + destruct (IH _ _ _ H) as [m [it' [x' [o' [f' [w' [A [B [C D]]]]]]]]].
      exists (S m), it', x', o', f', w'. rewrite Nat.add_succ_r. repeat split; auto; try lia.
Qed.

(** ** The line study *)
Lemma line_loop_log : forall F h dv1 dv2 divs, divs > 0 ->
  List.length dv1 = h_nvars h -> List.length dv2 = h_nvars h ->
  exists h', line_loop F h dv1 dv2 divs = Ok h' /\
    h_log h' = (h_log h ++ map (fun i => (h_iter h + i, line_sample dv1 dv2 i divs, 0%R,
                                       repeat 0%R (h_nineq h + h_neq h))) (seq 0 (S divs)))%list.
Proof.
  intros F h dv1 dv2 divs Hd L1 L2. unfold line_loop.
  set (body := fun (i : nat) (h0 : hist) => if divs =? 0 then Fault DivByZero else
    output_wrapper F h0 i (line_sample dv1 dv2 i divs) 0%R
      (repeat 0%R (h_nineq h0 + h_neq h0)) true).
  assert (G : forall n, exists h', loop n body h = Ok h' /\
    h_nvars h' = h_nvars h /\ h_neq h' = h_neq h /\ h_nineq h' = h_nineq h /\
    h_iter h' = h_iter h + n /\
    h_log h' = (h_log h ++ map (fun i => (h_iter h + i, line_sample dv1 dv2 i divs, 0%R,
                                       repeat 0%R (h_nineq h + h_neq h))) (seq 0 n))%list).
  { induction n.
    - exists h. cbn [loop seq map]. rewrite app_nil_r. repeat split; auto.
    - destruct IHn as [h' [E [A [B [C [I L]]]]]].
      cbn [loop]. rewrite E. cbn [bind].
      assert (Es : exists h'', body n h' = Ok h'' /\
         h_nvars h'' = h_nvars h' /\ h_neq h'' = h_neq h' /\ h_nineq h'' = h_nineq h' /\
         h_iter h'' = S (h_iter h') /\
         h_log h'' = (h_log h' ++ [(h_iter h', line_sample dv1 dv2 n divs, 0%R,
                                   repeat 0%R (h_nineq h' + h_neq h'))])%list).
      { unfold body. replace (divs =? 0) with false by (symmetry; apply Nat.eqb_neq; lia).
        unfold output_wrapper, output.
        assert (Ls : List.length (line_sample dv1 dv2 n divs) = h_nvars h')
          by (unfold line_sample; rewrite map_length, combine_length; lia).
        rewrite Ls, Nat.eqb_refl, repeat_length, (Nat.add_comm (h_nineq h')), Nat.eqb_refl.
        cbn [assert_]. destruct (h_open h') eqn:Eo; cbn [negb orb bind];
          eexists; (split; [reflexivity|]); cbn; repeat split; auto. }
      destruct Es as [h'' [E2 [A2 [B2 [C2 [I2 L2']]]]]].
      exists h''. rewrite E2. repeat split; try congruence; try lia.
      rewrite L2', L, seq_S, map_app, app_assoc. cbn [map Nat.add]. now rewrite I, B, C. }
  destruct (G (S divs)) as [h' [E [_ [_ [_ [_ L]]]]]]. exists h'. split; auto.
Qed.

Lemma go_length : forall F ts n i l,
  (fix go (n i : nat) : outcome (list R) :=
         match n with
         | O => Ok []
         | S k => t <- token ts (i + 1) ;; r <- to_real F t ;; rs <- go k (S i) ;; Ok (r :: rs)
         end) n i = Ok l -> List.length l = n.
Proof.
  intros F ts n; induction n; intros i l H.
  - injection H as <-. reflexivity.
  - destruct (token ts (i + 1)); [cbn [bind] in H|discriminate].
    destruct (to_real F a); [cbn [bind] in H|discriminate].
    match type of H with (bind ?m _ = _) => destruct m eqn:E end; [|discriminate].
    cbn [bind] in H. injection H as <-. simpl. f_equal. eapply IHn; eauto.
Qed.

Lemma read_dv_length : forall F h f it n l, read_dv F h f it n = Ok l -> List.length l = n.
Proof.
  intros F h f it n l H. unfold read_dv in H. cbv zeta in H.
  destruct (read_header "n_dv" (fst (getline f))) as [ndv|]; [cbn [bind] in H|discriminate].
  destruct (ndv =? n) eqn:E; [|discriminate]. apply Nat.eqb_eq in E. cbn [assert_] in H.
  match type of H with (bind ?m _ = _) => destruct m as [neq|] end;
    [cbn [bind] in H|discriminate].
  destruct (neq =? h_neq h); [|discriminate]. cbn [assert_] in H.
  match type of H with (bind ?m _ = _) => destruct m as [nineq|] end;
    [cbn [bind] in H|discriminate].
  match type of H with (assert_ ?b _ = _) => destruct b end; [|discriminate]. cbn [assert_] in H.
  match type of H with (bind ?m _ = _) => destruct m as [t0|] end; [cbn [bind] in H|discriminate].
  match type of H with (bind ?m _ = _) => destruct m as [k|] end; [cbn [bind] in H|discriminate].
  match type of H with (assert_ ?b _ = _) => destruct b end; [|discriminate]. cbn [assert_] in H.
  apply go_length in H. congruence.
Qed.
