(** C192-C195: a second scan, the next root, and solutions stored twice at one velocity. *)
From Coq Require Import Reals List Arith Bool Lra Lia.
From Verif Require Import Base BaseLemmas Flut_Model Flut_Proofs Ufl_Model Ufl_Spec Ufl_Proofs Ufl_Proofs2 Ufl_Proofs3 Ufl_Proofs4 Ufl_Props.
Import ListNotations.
Open Scope R_scope.

(** ** C192: scanning again changes nothing *)
Theorem C192_again : forall analyze inc lo hi n lo' hi' n' s s',
  ks_sols s = [] -> ug_scan analyze inc lo hi n s = Ok s' -> ug_scan analyze inc lo' hi' n' s' = Ok s'.
Proof.
  intros analyze inc lo hi n lo' hi' n' s s' E0 E. assert (H : ks_sols s' <> []).
  - unfold ug_scan in E. rewrite E0 in E.
    match type of E with (_ <- loop ?k ?f ?z ;; _) = _ => destruct (loop k f z) as [[m l]|] eqn:El; [|discriminate] end.
    cbn [bind fst] in E. destruct (ug_identify inc m) as [xs|]; [|discriminate]. inversion E; subst. cbn [ks_sols].
    clear E. cbn [loop] in El.
    match type of El with (_ <- ?q ;; _) = _ => destruct q as [[m2 l2]|]; [|discriminate] end. cbn [bind fst snd] in El.
    destruct (kinsert _ _ m2) as [m3|] eqn:Ei; [|discriminate]. inversion El; subst. intros ->.
    apply kinsert_in in Ei. apply Permutation.Permutation_nil in Ei. discriminate.
  - unfold ug_scan. destruct (ks_sols s') eqn:Es; [contradiction|reflexivity].
Qed.
Print Assumptions C192_again.

(** ** C193: the next root is the one the search ends with, for the first crossover without root; there is none exactly
    if every crossover has its root *)
Theorem C193_next : forall analyze t it s b r s', ug_next analyze t it s = Ok (b, r, s') ->
  ((b = false <-> r = None) /\ (b = false <-> forall k x, In (k, x) (ks_xs s) -> kx_root x <> None)) /\
  (b = false -> s' = s) /\
  (b = true -> exists k x before after ok sol root,
     ks_xs s = before ++ (k, x) :: after /\ kx_root x = None /\
     (forall k' x', In (k', x') before -> kx_root x' <> None) /\
     ug_search analyze x t it (ks_sols s) = Ok (ok, Some sol, ks_sols s') /\
     nth_error (k_roots sol) (kx_num x) = Some root /\ r = Some root /\
     In (k_V root, mkKx (kx_first x) (kx_second x) (kx_num x) (Some root)) (ks_xs s')).
Proof.
  intros analyze t it s b r s' E. unfold ug_next in E.
  assert (T : forall xs, match kx_take xs with
     | None => forall k x, In (k, x) xs -> kx_root x <> None
     | Some (x, rest) => exists k l1 l2, xs = l1 ++ (k, x) :: l2 /\ rest = l1 ++ l2 /\ kx_root x = None /\
          forall k' x', In (k', x') l1 -> kx_root x' <> None end).
  { induction xs as [|[k y] xs IH]; simpl; [tauto|]. destruct (kx_root y) eqn:Ey.
    - destruct (kx_take xs) as [[z q]|].
      + destruct IH as (k' & l1 & l2 & -> & -> & Hn & Hl). exists k', ((k, y) :: l1), l2. repeat split; auto.
        intros k2 x2 [I|I]; [inversion I; subst; congruence|eauto].
      + intros k2 x2 [I|I]; [inversion I; subst; congruence|eauto].
    - exists k, [], xs. repeat split; auto. }
  specialize (T (ks_xs s)). destruct (kx_take (ks_xs s)) as [[x rest]|].
  - destruct T as (k & l1 & l2 & Ex & -> & Hn & Hl). unfold ug_refine in E.
    destruct (ug_search analyze x t it (ks_sols s)) as [[[ok [sol|]] m]|] eqn:Es; try discriminate. cbn [bind fst snd] in E.
    unfold kget in E. destruct (nth_error (k_roots sol) (kx_num x)) as [root|] eqn:En; [|discriminate]. cbn [bind fst snd] in E.
    inversion E; subst. repeat split; try discriminate.
    + intros H. exfalso. apply (H k x); auto. rewrite Ex. apply in_or_app. right; left; auto.
    + intros _. exists k, x, l1, l2, ok, sol, root. repeat split; auto. cbn [ks_xs].
      generalize (l1 ++ l2). clear. induction l as [|[j y] l IH]; simpl; auto. destruct (rlt _ j); simpl; auto.
  - inversion E; subst. repeat split; auto; discriminate.
Qed.
Print Assumptions C193_next.

(** ** C195: a solution at a velocity already stored is merged root by root into the stored one and replaces it; the
    other velocities keep theirs *)
Theorem C195_merged : forall kr sol old m m', kfind (k_ref sol) m = Some old ->
  pk_insert kr sol m = Ok m' ->
  (exists new, kfind (k_ref sol) m' = Some new /\ k_ref new = k_ref old /\
     length (k_roots new) = length (k_roots old) /\
     (forall i o n, nth_error (k_roots old) i = Some o -> nth_error (k_roots sol) i = Some n ->
        nth_error (k_roots new) i =
          Some (if Rlt_dec (Rabs (Rabs (k_kr n) - kr)) (Rabs (Rabs (k_kr o) - k_kr o)) then n else o))) /\
  (forall v, v <> k_ref sol -> kfind v m' = kfind v m) /\ map fst m' = map fst m.
Proof.
  intros kr sol old m m' Ef E. unfold pk_insert in E. rewrite Ef in E. unfold assert_ in E.
  destruct (Nat.eqb_spec (length (k_roots old)) (length (k_roots sol))) as [El|]; [|discriminate].
  inversion E; subst; clear E. set (new := mkKs _ _).
  assert (F : forall v s q, kfind v q <> None -> kfind v (kreplace v s q) = Some s /\
            (forall u, u <> v -> kfind u (kreplace v s q) = kfind u q) /\ map fst (kreplace v s q) = map fst q).
  { intros v s q. induction q as [|[j x] q IH]; simpl; [congruence|].
    destruct (negb (rlt v j) && negb (rlt j v)) eqn:Eb; simpl.
    - intros _. rewrite Eb. repeat split; auto. intros u Hu.
      destruct (negb (rlt u j) && negb (rlt j u)) eqn:Eu; auto. exfalso. apply Hu.
      destruct (rlt_spec v j), (rlt_spec j v), (rlt_spec u j), (rlt_spec j u); simpl in *; try discriminate. lra.
    - intros H. rewrite Eb. destruct (IH H) as (A & A2 & A3). repeat split; auto; [|f_equal; auto].
      intros u Hu. rewrite (A2 u Hu). reflexivity. }
  destruct (F (k_ref sol) new m ltac:(congruence)) as (A & A2 & A3). split; [|split; auto].
  exists new. split; auto. split; [reflexivity|]. subst new. cbn [k_roots]. clear -El. unfold pk_merge. split.
  - rewrite map_length, combine_length. lia.
  - generalize (k_roots old) (k_roots sol) El. clear. induction l as [|o l IH]; intros [|n k] El i o' n' E1 E2; try discriminate;
      try (destruct i; discriminate). destruct i as [|i]; simpl in *.
    + inversion E1; inversion E2; subst. unfold rlt. destruct (Rlt_dec _ _); reflexivity.
    + apply IH; auto.
Qed.
Print Assumptions C195_merged.

Definition up_root (kr g : R) : kroot := mkKr kr 1 g 0 false (0, 0).
Definition up_sol (kr g : R) : ksol := mkKs kr [up_root kr g].
Example C192_again_example : exists s', ug_scan (fun kr _ => up_sol kr (kr / 4)) true 1 2 1 (mkKst [] []) = Ok s'.
Proof.
  apply (C192_sweep_total _ 1); try lra; try lia. intros kr p. simpl. auto.
Qed.
Example C193_next_example : exists r s', ug_next (fun kr _ => up_sol kr (kr - 1)) 1 3
    (mkKst [] [(1, mkKx (up_sol 0 (-1)) (up_sol 2 1) 0 None)]) = Ok (true, Some r, s').
Proof.
  unfold ug_next. cbn [ks_xs ks_sols kx_take kx_root]. unfold ug_refine, ug_search.
  cbn [kget kx_first kx_second kx_num up_sol k_roots nth_error bind up_root k_kr k_g ug_bisect upper_g lower_g].
  destruct (Req_EM_T (1 - -1) 0); [lra|]. cbn [kinsert bind kget up_sol k_roots nth_error up_root k_g].
  unfold new_V. cbn [lower_V upper_V lower_g upper_g].
  destruct (rle_spec (Rabs (0 + (2 - 0) / (1 - -1) * (0 - -1) - 1)) 1) as [_|Hn].
  - cbn. eauto.
  - exfalso. apply Hn. replace (0 + (2 - 0) / (1 - -1) * (0 - -1) - 1) with 0 by field. rewrite Rabs_R0. lra.
Qed.
Example C195_merged_example : exists m', kfind 2 [(1, up_sol 1 0); (2, up_sol 2 0)] = Some (up_sol 2 0) /\
  pk_insert 1 (up_sol 2 1) [(1, up_sol 1 0); (2, up_sol 2 0)] = Ok m'.
Proof.
  assert (E : kfind 2 [(1, up_sol 1 0); (2, up_sol 2 0)] = Some (up_sol 2 0)).
  { simpl. destruct (rlt_spec 2 1), (rlt_spec 1 2), (rlt_spec 2 2); simpl; try lra. reflexivity. }
  eexists. split; [exact E|]. unfold pk_insert. cbn [k_ref up_sol]. fold (up_sol 2 0) in *. fold (up_sol 1 0) in *. rewrite E. reflexivity.
Qed.
