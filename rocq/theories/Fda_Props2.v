(** C240: the element is its interior and each of its sides. *)
From Coq Require Import List Arith Bool Lia Reals Lra FunctionalExtensionality.
From Verif Require Import Base BaseLemmas RBool Flui_Model Flui_Spec Flui_Proofs Cfe_Model Cfe_Spec Fdf_Model Fdf_Spec Fdf_Proofs Fdf_Proofs2 Fdf_Props Fda_Model Fda_Spec Fda_Props.
Import ListNotations.
Open Scope R_scope.

Definition a_add (a b : cvec * cmat) : cvec * cmat := (c_add (fst a) (fst b), cm_add (snd a) (snd b)).
Definition zero : cvec * cmat := ((ev0, ev0), (em0, em0)).
Lemma c_add_assoc a b c : c_add (c_add a b) c = c_add a (c_add b c).
Proof. unfold c_add; cbn [fst snd]. f_equal; fext; unfold ev_add; ring. Qed.
Lemma c_add_0 a : c_add (ev0, ev0) a = a.
Proof. destruct a. unfold c_add; cbn [fst snd]. f_equal; fext; unfold ev_add, ev0; ring. Qed.
Lemma c_add_0r a : c_add a (ev0, ev0) = a.
Proof. destruct a. unfold c_add; cbn [fst snd]. f_equal; fext; unfold ev_add, ev0; ring. Qed.
Lemma cm_add_assoc a b c : cm_add (cm_add a b) c = cm_add a (cm_add b c).
Proof. unfold cm_add; cbn [fst snd]. f_equal; fext; unfold em_add; ring. Qed.
Lemma cm_add_0 a : cm_add (em0, em0) a = a.
Proof. destruct a. unfold cm_add; cbn [fst snd]. f_equal; fext; unfold em_add, em0; ring. Qed.
Lemma cm_add_0r a : cm_add a (em0, em0) = a.
Proof. destruct a. unfold cm_add; cbn [fst snd]. f_equal; fext; unfold em_add, em0; ring. Qed.
Lemma a_add_assoc a b c : a_add (a_add a b) c = a_add a (a_add b c).
Proof. unfold a_add; cbn [fst snd]. now rewrite c_add_assoc, cm_add_assoc. Qed.
Lemma a_add_0 a : a_add zero a = a.
Proof. destruct a. unfold a_add, zero; cbn [fst snd]. now rewrite c_add_0, cm_add_0. Qed.
Lemma a_add_0r a : a_add a zero = a.
Proof. destruct a. unfold a_add, zero; cbn [fst snd]. now rewrite c_add_0r, cm_add_0r. Qed.

(** a step that adds the same to whatever there is *)
Definition adds {A X} (add : A -> A -> A) (f : X -> A -> outcome A) : Prop := forall x a r, f x a = Ok r -> exists p, r = add a p /\ forall a', f x a' = Ok (add a' p).
Lemma over_adds {A X} (add : A -> A -> A) (e : A) (f : X -> A -> outcome A) : (forall a b c, add (add a b) c = add a (add b c)) -> (forall a, add a e = a) ->
  adds add f -> adds add (over f).
Proof.
  intros As Er F l. induction l as [|x l IH]; intros a r H; cbn [over] in *.
  - injection H as <-. exists e. split; [now rewrite Er|]. intros a'. now rewrite Er.
  - destruct (f x a) as [a1|] eqn:E; [|discriminate]. cbn [bind] in H. destruct (F x a a1 E) as (p & -> & P). destruct (IH _ _ H) as (q & -> & Q).
    exists (add p q). split; [apply As|]. intros a'. rewrite P. cbn [bind]. rewrite Q. now rewrite As.
Qed.

Section Props.
Variables (d : nat) (cp cv : R) (nphi : nat).
Lemma wall_step_adds bV om asked b x z : adds a_add (wall_step d cp cv nphi bV om asked b x z).
Proof.
  intros q acc r H. unfold wall_step in *. destruct (prim_init _ _ _ _ _) as [s|]; [|discriminate]. cbn [bind] in *.
  set (fl := wall_point _ _ _ _ _ _ _ _ _ _) in *. clearbody fl.
  assert (V : forall w N f a, add_vec w N f a = ev_add a (add_vec w N f ev0)) by (intros; fext; unfold add_vec, ev_add, ev0; ring).
  assert (M : forall w N J N' a, add_mat w N J N' a = em_add a (add_mat w N J N' em0)) by (intros; fext; unfold add_mat, em_add, em0; ring).
  destruct asked.
  - destruct (wall_jac _ _ _ _ _ _ _) as [J|]; [|discriminate]. cbn [bind] in *. injection H as <-.
    exists ((add_vec (fq_w q) (fq_N q) (fst fl) ev0, add_vec (fq_w q) (fq_N q) (snd fl) ev0), (add_mat (fq_w q * bV) (fq_N q) J (fq_N q) em0, em0)).
    assert (E : forall a : cvec * cmat, ((add_vec (fq_w q) (fq_N q) (fst fl) (fst (fst a)), add_vec (fq_w q) (fq_N q) (snd fl) (snd (fst a))), (add_mat (fq_w q * bV) (fq_N q) J (fq_N q) (fst (snd a)), snd (snd a))) =
      a_add a ((add_vec (fq_w q) (fq_N q) (fst fl) ev0, add_vec (fq_w q) (fq_N q) (snd fl) ev0), (add_mat (fq_w q * bV) (fq_N q) J (fq_N q) em0, em0))).
    { intros a. unfold a_add, c_add, cm_add. cbn [fst snd]. rewrite <- !V, <- M. assert (Z : em_add (snd (snd a)) em0 = snd (snd a)) by (fext; unfold em_add, em0; ring). rewrite Z. reflexivity. }
    split; [apply E|]. intros a'. now rewrite <- E.
  - injection H as <-. exists ((add_vec (fq_w q) (fq_N q) (fst fl) ev0, add_vec (fq_w q) (fq_N q) (snd fl) ev0), (em0, em0)).
    assert (E : forall a : cvec * cmat, ((add_vec (fq_w q) (fq_N q) (fst fl) (fst (fst a)), add_vec (fq_w q) (fq_N q) (snd fl) (snd (fst a))), snd a) =
      a_add a ((add_vec (fq_w q) (fq_N q) (fst fl) ev0, add_vec (fq_w q) (fq_N q) (snd fl) ev0), (em0, em0))).
    { intros a. unfold a_add. cbn [fst snd]. rewrite cm_add_0r. unfold c_add. cbn [fst snd]. now rewrite <- !V. }
    split; [apply E|]. intros a'. now rewrite <- E.
Qed.
Lemma fd_side_adds bV om asked x z : adds a_add (fd_side d cp cv nphi bV om asked x z).
Proof.
  assert (T : forall J a, add_still d nphi bV asked J z a = a_add a (add_still d nphi bV asked J z zero)).
  { intros J a. unfold add_still, a_add, zero. cbn [fst snd]. rewrite c_add_0. f_equal. destruct asked; [now rewrite cm_add_0|now rewrite cm_add_0r]. }
  intros sc acc r H. unfold fd_side in *. destruct (snd sc) as [|b|inf| |].
  - destruct (still_matrix _ _ _ _ _ _ _) as [J|]; [|discriminate]. cbn [bind] in *. injection H as <-. eexists. split; [apply T|]. intros a'. now rewrite <- T.
  - unfold wall_side in *. destruct (fs_dw b), (fs_dn b); try discriminate; eapply (over_adds a_add zero); eauto using a_add_assoc, a_add_0r, wall_step_adds.
  - destruct (still_matrix _ _ _ _ _ _ _) as [J|]; [|discriminate]. cbn [bind] in *. injection H as <-. eexists. split; [apply T|]. intros a'. now rewrite <- T.
  - injection H as <-. exists zero. split; [now rewrite a_add_0r|]. intros; now rewrite a_add_0r.
  - discriminate.
Qed.
Lemma wall_sens_adds dom b x : adds c_add (wall_sens_step d cp cv nphi dom b x).
Proof.
  intros q acc r H. unfold wall_sens_step in *. destruct (prim_init _ _ _ _ _) as [s|]; [|discriminate]. cbn [bind] in *. cbv zeta in *. injection H as <-.
  assert (V : forall w N f a, add_vec w N f a = ev_add a (add_vec w N f ev0)) by (intros; fext; unfold add_vec, ev_add, ev0; ring).
  eexists. split; [|intros a'; f_equal]; unfold c_add; cbn [fst snd].
  - rewrite (V _ _ _ (fst acc)), (V _ _ _ (snd acc)). match goal with |- (ev_add _ ?p, ev_add _ ?q) = _ => instantiate (1 := (p, q)) end. reflexivity.
  - cbn [fst snd]. rewrite <- !V. reflexivity.
Qed.
Lemma fd_side_sens_adds bV dom x zs : adds c_add (fd_side_sens d cp cv nphi bV dom x zs).
Proof.
  intros sc acc r H. unfold fd_side_sens in *. destruct (snd sc) as [|b|inf| |].
  - destruct (still_matrix _ _ _ _ _ _ _) as [J|]; [|discriminate]. cbn [bind] in *. injection H as <-. eexists. split; reflexivity.
  - unfold wall_sens_side in *. destruct (fs_disp b), (fs_rot b), (fs_dw b), (fs_dn b); try discriminate; eapply (over_adds c_add (ev0, ev0)); eauto using c_add_assoc, c_add_0r, wall_sens_adds.
  - destruct (still_matrix _ _ _ _ _ _ _) as [J|]; [|discriminate]. cbn [bind] in *. injection H as <-. eexists. split; reflexivity.
  - injection H as <-. exists (ev0, ev0). split; [now rewrite c_add_0r|]. intros; now rewrite c_add_0r.
  - discriminate.
Qed.
Lemma sides_split bV om asked x z sides r : over (fd_side d cp cv nphi bV om asked x z) sides zero = Ok r ->
  exists ps, Forall2 (fun sc p => fd_side d cp cv nphi bV om asked x z sc zero = Ok p) sides ps /\ r = fold_right a_add zero ps.
Proof.
  revert r. induction sides as [|sc l IH]; intros r H; cbn [over] in H; [injection H as <-; exists []; split; constructor|].
  destruct (fd_side _ _ _ _ _ _ _ _ _ sc zero) as [a|] eqn:E; [|discriminate]. cbn [bind] in H.
  destruct (over_adds a_add zero _ a_add_assoc a_add_0r (fd_side_adds bV om asked x z) l a r H) as (q & -> & Q).
  specialize (Q zero). rewrite a_add_0 in Q. destruct (IH q Q) as (ps & F & ->). exists (a :: ps). split; [constructor; auto|]. reflexivity.
Qed.
(** The element gives the sum of what its interior and each of its sides give alone, entry by entry, for the vector and the matrix. *)
Theorem C240_parts : forall f asked tau shock qps sides x z r, fd_elem d cp cv nphi (Some f) asked tau shock qps sides x z = Ok r ->
  exists ri ps, fd_internal d cp cv nphi (Some f) asked tau shock qps x z ((ev0, ev0), (em0, em0)) = Ok ri /\
    Forall2 (fun sc p => fd_sides d cp cv nphi (Some f) asked [sc] x z ((ev0, ev0), (em0, em0)) = Ok p) sides ps /\
    (forall v k, fst (fst r) v k = fst (fst ri) v k + fold_right Rplus 0 (map (fun p => fst (fst p) v k) ps)) /\
    (forall v k, snd (fst r) v k = snd (fst ri) v k + fold_right Rplus 0 (map (fun p => snd (fst p) v k) ps)) /\
    (forall v k v' k', fst (snd r) v k v' k' = fst (snd ri) v k v' k' + fold_right Rplus 0 (map (fun p => fst (snd p) v k v' k') ps)) /\
    (forall v k v' k', snd (snd r) v k v' k' = snd (snd ri) v k v' k' + fold_right Rplus 0 (map (fun p => snd (snd p) v k v' k') ps)).
Proof.
  intros f asked tau shock qps sides x z r H. unfold fd_elem in H. destruct (fd_internal _ _ _ _ _ _ _ _ _ _ _ _) as [ri|] eqn:EI; [|discriminate]. cbn [bind] in H.
  unfold fd_sides in H. destruct (ff_factor f) as [b|] eqn:EB; [|discriminate]. cbn [bind] in H.
  destruct (over_adds a_add zero _ a_add_assoc a_add_0r (fd_side_adds b (ff_om f) asked x z) sides ri r H) as (q & -> & Q).
  specialize (Q zero). rewrite a_add_0 in Q. destruct (sides_split _ _ _ _ _ _ _ Q) as (ps & F & ->). exists ri, ps. split; [auto|]. split.
  - clear - F EB. induction F as [|sc p l ps E _ IH]; constructor; auto. unfold fd_sides. rewrite EB. cbn [bind over]. fold zero. rewrite E. reflexivity.
  - unfold a_add at 1 3 5 7. cbn [fst snd]. clear. 
    repeat split; intros; unfold c_add, cm_add; cbn [fst snd]; unfold ev_add, em_add; f_equal; induction ps as [|p ps IH]; cbn; auto; unfold ev_add, em_add in *; rewrite <- IH; reflexivity.
Qed.
Theorem C240_sensitivity_parts : forall f tau shock qps sides x z zs s, fd_elem_sens d cp cv nphi (Some f) tau shock qps sides x z zs = Ok s ->
  exists si ps, fd_internal_sens d cp cv nphi (Some f) tau shock qps x z zs (ev0, ev0) = Ok si /\
    Forall2 (fun sc p => fd_sides_sens d cp cv nphi (Some f) [sc] x zs (ev0, ev0) = Ok p) sides ps /\
    (forall v k, fst s v k = fst si v k + fold_right Rplus 0 (map (fun p => fst p v k) ps)) /\
    (forall v k, snd s v k = snd si v k + fold_right Rplus 0 (map (fun p => snd p v k) ps)).
Proof.
  intros f tau shock qps sides x z zs s H. unfold fd_elem_sens in H. destruct (fd_internal_sens _ _ _ _ _ _ _ _ _ _ _ _) as [si|] eqn:EI; [|discriminate]. cbn [bind] in H.
  unfold fd_sides_sens in H. destruct (ff_factor f) as [b|] eqn:EB; [|discriminate]. cbn [bind] in H.
  assert (Sp : forall l r, over (fd_side_sens d cp cv nphi b (ff_dom f) x zs) l (ev0, ev0) = Ok r ->
    exists ps, Forall2 (fun sc p => fd_sides_sens d cp cv nphi (Some f) [sc] x zs (ev0, ev0) = Ok p) l ps /\ r = fold_right c_add (ev0, ev0) ps).
  { induction l as [|sc l IH]; intros r Hr; cbn [over] in Hr; [injection Hr as <-; exists []; split; constructor|].
    destruct (fd_side_sens _ _ _ _ _ _ _ _ sc _) as [a|] eqn:E; [|discriminate]. cbn [bind] in Hr.
    destruct (over_adds c_add (ev0, ev0) _ c_add_assoc c_add_0r (fd_side_sens_adds b (ff_dom f) x zs) l a r Hr) as (q & -> & Q).
    specialize (Q (ev0, ev0)). rewrite c_add_0 in Q. destruct (IH q Q) as (ps & F & ->). exists (a :: ps). split; [constructor; auto|reflexivity].
    unfold fd_sides_sens. rewrite EB. cbn [bind over]. rewrite E. reflexivity. }
  destruct (over_adds c_add (ev0, ev0) _ c_add_assoc c_add_0r (fd_side_sens_adds b (ff_dom f) x zs) sides si s H) as (q & -> & Q).
  specialize (Q (ev0, ev0)). rewrite c_add_0 in Q. destruct (Sp _ _ Q) as (ps & F & ->). exists si, ps. split; [auto|]. split; [auto|].
  clear. split; intros; unfold c_add at 1; cbn [fst snd]; unfold ev_add; f_equal; induction ps as [|p ps IH]; cbn; auto; unfold ev_add in *; rewrite <- IH; reflexivity.
Qed.
End Props.
Print Assumptions C240_parts.
Print Assumptions C240_sensitivity_parts.
