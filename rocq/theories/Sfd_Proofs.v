From Coq Require Import List Arith Bool Reals Lra Lia Permutation.
From Verif Require Import Base RBool Sens_Model Stre_Model Stre_Spec Stre_Proofs Sfd_Model Sfd_Spec.
Import ListNotations.
Open Scope R_scope.

(** ** largest values *)
Definition peak0 (l : list R) (v : R) : Prop := (v = 0 \/ In v l) /\ forall w, In w l -> Rabs w <= Rabs v.
Definition largest0 (l : list R) (v : R) : Prop := (v = 0 \/ In v l) /\ 0 <= v /\ forall w, In w l -> w <= v.
Lemma peak0_app l l' a b : peak0 l a -> peak0 l' b -> peak0 (l ++ l') (larger a b).
Proof.
  intros (I & H) (I' & H'). unfold larger. destruct (rltb (Rabs a) (Rabs b)) eqn:E; [apply rltb_true in E|apply rltb_false in E]; split.
  - destruct I'; auto. right. apply in_or_app; auto.
  - intros w Hw. apply in_app_or in Hw. destruct Hw as [Hw|Hw]; auto. specialize (H w Hw). lra.
  - destruct I; auto. right. apply in_or_app; auto.
  - intros w Hw. apply in_app_or in Hw. destruct Hw as [Hw|Hw]; auto. specialize (H' w Hw). lra.
Qed.
Lemma peak0_one v : peak0 [v] v.
Proof. split; [cbn; auto|]. intros w [<-|[]]. lra. Qed.
Lemma peak0_peak l v : l <> [] -> peak0 l v -> peak l v.
Proof.
  intros N (I & H). split; auto. destruct I as [->|I]; auto. destruct l as [|a l]; [easy|]. left.
  specialize (H a (or_introl eq_refl)). rewrite Rabs_R0 in H. pose proof (Rabs_pos a). destruct (Req_dec a 0) as [->|Z]; auto.
  pose proof (Rabs_pos_lt a Z). lra.
Qed.
Definition bigger (m v : R) : R := if rltb m v then v else m.
Lemma largest0_app l l' a b : largest0 l a -> largest0 l' b -> largest0 (l ++ l') (bigger a b).
Proof.
  intros (I & P & H) (I' & P' & H'). unfold bigger. destruct (rltb a b) eqn:E; [apply rltb_true in E|apply rltb_false in E]; (split; [|split]); try lra.
  - destruct I'; auto. right. apply in_or_app; auto.
  - intros w Hw. apply in_app_or in Hw. destruct Hw as [Hw|Hw]; auto. specialize (H w Hw). lra.
  - destruct I; auto. right. apply in_or_app; auto.
  - intros w Hw. apply in_app_or in Hw. destruct Hw as [Hw|Hw]; auto. specialize (H' w Hw). lra.
Qed.
Lemma largest0_one v : 0 <= v -> largest0 [v] v.
Proof. intros P. split; [cbn; auto|]. split; auto. intros w [<-|[]]. lra. Qed.
Lemma largest0_largest l v : l <> [] -> (forall w, In w l -> 0 <= w) -> largest0 l v -> largest l v.
Proof.
  intros N P (I & Q & H). split; auto. destruct I as [->|I]; auto. destruct l as [|a l]; [easy|]. left.
  specialize (H a (or_introl eq_refl)). specialize (P a (or_introl eq_refl)). lra.
Qed.
Definition shows0 (pts : list spoint) (v : row13) : Prop :=
  (forall i, (i < 6)%nat -> peak0 (map (fun q => sp_strain q i) pts) (v i)) /\
  (forall i, (i < 6)%nat -> peak0 (map (fun q => sp_stress q i) pts) (v (6 + i)%nat)) /\
  largest0 (map (fun q => mises (sp_stress q)) pts) (v 12%nat).
Lemma shows0_shows pts v : pts <> [] -> shows0 pts v -> shows pts v.
Proof.
  intros N (A & B & C). assert (M : forall (g : spoint -> R), map g pts <> []) by (intros g E; apply map_eq_nil in E; auto).
  split; [|split].
  - intros i Hi. apply peak0_peak; auto.
  - intros i Hi. apply peak0_peak; auto.
  - apply largest0_largest; auto. intros w Hw. apply in_map_iff in Hw. destruct Hw as (q & <- & _). apply mises_pos.
Qed.
Lemma pack_strain e s m i : (i < 6)%nat -> pack e s m i = e i.
Proof. intros H. unfold pack. apply Nat.ltb_lt in H. now rewrite H. Qed.
Lemma pack_stress e s m i : (i < 6)%nat -> pack e s m (6 + i)%nat = s i.
Proof.
  intros H. unfold pack. assert (E : (6 + i <? 6)%nat = false) by (apply Nat.ltb_ge; lia). rewrite E.
  assert (E' : (6 + i <? 12)%nat = true) by (apply Nat.ltb_lt; lia). rewrite E'. f_equal. lia.
Qed.
Lemma pack_vm e s m : pack e s m 12%nat = m.
Proof. reflexivity. Qed.
Lemma pack_shows0 pts e s m : (forall i, (i < 6)%nat -> peak0 (map (fun q => sp_strain q i) pts) (e i)) ->
  (forall i, (i < 6)%nat -> peak0 (map (fun q => sp_stress q i) pts) (s i)) -> largest0 (map (fun q => mises (sp_stress q)) pts) m ->
  shows0 pts (pack e s m).
Proof. intros A B C. split; [|split]; auto; intros i Hi; [rewrite pack_strain|rewrite pack_stress]; auto. Qed.
Lemma fold_max l : forall pre e s m, (forall i, peak0 (map (fun q => sp_strain q i) pre) (e i)) ->
  (forall i, peak0 (map (fun q => sp_stress q i) pre) (s i)) -> largest0 (map (fun q => mises (sp_stress q)) pre) m ->
  exists e' s' m', fold_left max_step l (Ok (e, s, m)) = Ok (e', s', m') /\ (forall i, peak0 (map (fun q => sp_strain q i) (pre ++ l)) (e' i)) /\
    (forall i, peak0 (map (fun q => sp_stress q i) (pre ++ l)) (s' i)) /\ largest0 (map (fun q => mises (sp_stress q)) (pre ++ l)) m'.
Proof.
  induction l as [|q l IH]; intros pre e s m A B C.
  - cbn. exists e, s, m. rewrite app_nil_r. auto.
  - cbn [fold_left]. unfold max_step at 2. cbn [bind]. rewrite von_mises_ok. cbn [bind].
    replace (pre ++ q :: l) with ((pre ++ [q]) ++ l) by now rewrite <- app_assoc.
    apply IH; try (intros i); rewrite map_app; cbn [map].
    + apply peak0_app; auto. apply peak0_one.
    + apply peak0_app; auto. apply peak0_one.
    + apply largest0_app; auto. apply largest0_one, mises_pos.
Qed.
Lemma max_many l : exists e s m, fold_left max_step l (Ok (fun _ => 0, fun _ => 0, 0)) = Ok (e, s, m) /\ shows0 l (pack e s m).
Proof.
  destruct (fold_max l [] (fun _ => 0) (fun _ => 0) 0) as (e & s & m & E & A & B & C).
  - intros i. split; [auto|]. intros w [].
  - intros i. split; [auto|]. intros w [].
  - split; [auto|]. split; [lra|]. intros w [].
  - exists e, s, m. split; auto. apply pack_shows0; auto.
Qed.
Lemma max_ok l : exists e s m, max_values None l = Ok (e, s, m) /\ shows0 l (pack e s m).
Proof.
  unfold max_values. destruct l as [|q [|q' l]]; [apply max_many| |apply max_many].
  rewrite von_mises_ok. cbn [bind]. eexists _, _, _. split; [reflexivity|]. apply pack_shows0.
  - intros i _. apply peak0_one.
  - intros i _. apply peak0_one.
  - apply largest0_one, mises_pos.
Qed.
Lemma max_any p l : exists e s m, max_values p l = Ok (e, s, m).
Proof.
  unfold max_values. destruct l as [|q [|q' l]]; try (destruct (max_many []) as (e & s & m & E & _); eauto; fail).
  - destruct p as [(f, dx)|]; [destruct (dmises_total (sp_stress q) (sp_dstress q f dx)) as (v & ->)|rewrite von_mises_ok]; cbn [bind]; eauto.
  - destruct (max_many (q :: q' :: l)) as (e & s & m & E & _); eauto.
Qed.

(** ** the field *)
Definition locp (p : option (nat * vec)) (e : selem) := match p with None => None | Some (f, dX) => Some (f, gather (se_dofs e) dX) end.
Definition evalue (th : params) (X : vec) (p : option (nat * vec)) (e : selem) : row13 :=
  match max_values (locp p e) (elem_points th X e) with Ok (a, b, c) => pack a b c | Fault _ => fun _ => 0 end.
Definition eset (th : params) (X : vec) (p : option (nat * vec)) (F : nat -> row13) (e : selem) : nat -> row13 :=
  if se_part e then set13 F (se_id e) (evalue th X p e) else F.
Definition has_points (th : params) (X : vec) (e : selem) : Prop := se_part e = true -> elem_points th X e <> [].
Lemma selem_ok th X p F old e : has_points th X e ->
  selem_step th X p (Ok (F, old)) e = Ok (eset th X p F e, if se_part e then elem_points th X e else []).
Proof.
  intros H. unfold selem_step, eset. cbn [bind fst]. destruct (se_part e) eqn:P; cbn [negb]; auto. specialize (H P).
  change (se_pts e th (gather (se_dofs e) X)) with (elem_points th X e). unfold evalue. fold (locp p e).
  destruct (length (elem_points th X e) =? 0)%nat eqn:L; [apply Nat.eqb_eq, length_zero_iff_nil in L; contradiction|].
  destruct (max_any (locp p e) (elem_points th X e)) as (a & b & c & ->). reflexivity.
Qed.
Lemma fold_ok th X p es : forall F old, (forall e, In e es -> has_points th X e) ->
  fold_left (selem_step th X p) es (Ok (F, old)) = Ok (fold_left (eset th X p) es F, kept th X (es, old)).
Proof.
  induction es as [|e es IH]; intros F old H; [reflexivity|]. cbn [fold_left]. rewrite selem_ok by (apply H; now left).
  rewrite IH by (intros; apply H; now right). f_equal. f_equal. unfold kept. cbn [fst snd rev].
  destruct (rev es) as [|r rs] eqn:E; [reflexivity|]. reflexivity.
Qed.
Lemma ranks_ok th X p rs : forall F, (forall e, In e (mesh_elems rs) -> has_points th X e) ->
  sfield_ranks th X p rs F = Ok (fold_left (eset th X p) (mesh_elems rs) F, map (kept th X) rs).
Proof.
  induction rs as [|(es, old) rs IH]; intros F H; [reflexivity|]. cbn [sfield_ranks].
  assert (H1 : forall e, In e es -> has_points th X e) by (intros e He; apply H; unfold mesh_elems; cbn; apply in_or_app; auto).
  assert (H2 : forall e, In e (mesh_elems rs) -> has_points th X e) by (intros e He; apply H; unfold mesh_elems; cbn; apply in_or_app; auto).
  rewrite fold_ok by auto. cbn [bind fst snd]. rewrite IH by auto. cbn [bind fst snd]. unfold mesh_elems. cbn [map fst concat].
  rewrite fold_left_app. reflexivity.
Qed.
Lemma fold_eset_out th X p es : forall F id, ~ In id (map se_id es) -> fold_left (eset th X p) es F id = F id.
Proof.
  induction es as [|e es IH]; intros F id H; [reflexivity|]. cbn [fold_left]. rewrite IH by (intros C; apply H; now right).
  unfold eset. destruct (se_part e); auto. unfold set13. destruct (Nat.eqb_spec id (se_id e)); auto. exfalso. apply H. now left.
Qed.
Lemma fold_eset_in th X p es : forall F e, NoDup (map se_id es) -> In e es ->
  fold_left (eset th X p) es F (se_id e) = if se_part e then evalue th X p e else F (se_id e).
Proof.
  induction es as [|a es IH]; intros F e N I; [destruct I|]. inversion N; subst. cbn [fold_left]. destruct I as [->|I].
  - rewrite fold_eset_out by auto. unfold eset. destruct (se_part e); auto. unfold set13. now rewrite Nat.eqb_refl.
  - rewrite IH by auto. destruct (se_part e); auto. unfold eset. destruct (se_part a); auto. unfold set13.
    destruct (Nat.eqb_spec (se_id e) (se_id a)) as [E|]; auto. exfalso. apply H1. rewrite <- E. now apply in_map.
Qed.
Lemma fault_fold th X p es f : fold_left (selem_step th X p) es (Fault f) = Fault f.
Proof. induction es; auto. Qed.
Lemma selem_fault th X p s e : se_part e = true -> elem_points th X e = [] -> selem_step th X p (Ok s) e = Fault AssertFailed.
Proof. intros P E. unfold selem_step. cbn [bind]. rewrite P. cbn [negb]. change (se_pts e th (gather (se_dofs e) X)) with (elem_points th X e). now rewrite E. Qed.
Lemma selem_cases th X p s e : (exists s', selem_step th X p (Ok s) e = Ok s') \/ selem_step th X p (Ok s) e = Fault AssertFailed.
Proof.
  destruct s as (F, old). destruct (se_part e) eqn:P.
  - destruct (elem_points th X e) eqn:E; [right; now apply selem_fault|]. left. rewrite selem_ok; eauto. intros _. rewrite E. discriminate.
  - left. rewrite selem_ok; eauto. intros C. congruence.
Qed.
Lemma fold_empty th X p es : forall s e, In e es -> se_part e = true -> elem_points th X e = [] ->
  fold_left (selem_step th X p) es (Ok s) = Fault AssertFailed.
Proof.
  induction es as [|a es IH]; intros s e I P E; [destruct I|]. cbn [fold_left]. destruct I as [->|I].
  - rewrite selem_fault by auto. apply fault_fold.
  - destruct (selem_cases th X p s a) as [(s' & ->)| ->]; [eapply IH; eauto|apply fault_fold].
Qed.
Lemma fold_cases th X p es : forall s, (exists s', fold_left (selem_step th X p) es (Ok s) = Ok s') \/ fold_left (selem_step th X p) es (Ok s) = Fault AssertFailed.
Proof.
  induction es as [|a es IH]; intros s; [cbn; eauto|]. cbn [fold_left].
  destruct (selem_cases th X p s a) as [(s' & ->)| ->]; [apply IH|right; apply fault_fold].
Qed.
Lemma ranks_empty th X p rs : forall F e, In e (mesh_elems rs) -> se_part e = true -> elem_points th X e = [] ->
  sfield_ranks th X p rs F = Fault AssertFailed.
Proof.
  induction rs as [|(es, old) rs IH]; intros F e I P E; [destruct I|]. cbn [sfield_ranks]. unfold mesh_elems in I. cbn in I. apply in_app_or in I.
  destruct I as [I|I].
  - rewrite (fold_empty th X p es (F, old) e) by auto. reflexivity.
  - destruct (fold_cases th X p es (F, old)) as [(s & ->)| ->]; [|reflexivity]. cbn [bind]. rewrite (IH (fst s) e) by auto. reflexivity.
Qed.

(** ** cut elements *)
Definition csol (X : vec) (e : scut) : vec := match sc_fac e with Some x => x | None => gather (sc_dofs e) X end.
Definition csubs (X : vec) (e : scut) : list (nat * list spoint) := map (fun s => (fst s, snd s (csol X e))) (sc_hi e).
Lemma add_subs l : forall m, NoDup (map fst (m ++ l)) -> (forall s, In s l -> snd s <> []) -> fold_left add_sub l (Ok m) = Ok (m ++ l).
Proof.
  induction l as [|s l IH]; intros m N H; [now rewrite app_nil_r|]. cbn [fold_left]. unfold add_sub at 2. cbn [bind].
  specialize (H s (or_introl eq_refl)) as Hs. destruct (snd s) eqn:E; [contradiction|].
  assert (X : existsb (fun q => (fst q =? fst s)%nat) m = false).
  { apply not_true_iff_false. intros C. apply existsb_exists in C. destruct C as (q & Iq & C). apply Nat.eqb_eq in C.
    rewrite map_app in N. cbn [map] in N. apply NoDup_remove_2 in N. apply N. apply in_or_app. left. rewrite <- C. now apply in_map. }
  rewrite X. replace (m ++ s :: l) with ((m ++ [s]) ++ l) by now rewrite <- app_assoc. apply IH.
  - now rewrite <- app_assoc.
  - intros; apply H; now right.
Qed.
Lemma merge_ok l : forall pre a, shows0 (flat_map snd pre) a -> exists v, fold_left merge_sub l (Ok a) = Ok v /\ shows0 (flat_map snd (pre ++ l)) v.
Proof.
  induction l as [|s l IH]; intros pre a H; [exists a; rewrite app_nil_r; auto|]. cbn [fold_left]. unfold merge_sub at 2. cbn [bind].
  destruct (max_ok (snd s)) as (e & t & m & E & S). rewrite E. cbn [bind].
  replace (pre ++ s :: l) with ((pre ++ [s]) ++ l) by now rewrite <- app_assoc. apply IH. rewrite flat_map_app. cbn [flat_map]. rewrite app_nil_r.
  destruct H as (A & B & C). destruct S as (A' & B' & C'). apply pack_shows0.
  - intros i Hi. rewrite map_app. apply peak0_app; auto. specialize (A' i Hi). now rewrite pack_strain in A'.
  - intros i Hi. rewrite map_app. apply peak0_app; [specialize (B i Hi); now rewrite Nat.add_comm in B|]. specialize (B' i Hi). now rewrite pack_stress in B'.
  - rewrite map_app. rewrite pack_vm in C'. replace (Rmax m (a 12%nat)) with (bigger (a 12%nat) m); [now apply largest0_app|].
    unfold bigger. destruct (rltb (a 12%nat) m) eqn:Q; [apply rltb_true in Q; rewrite Rmax_left; lra|apply rltb_false in Q; rewrite Rmax_right; lra].
Qed.
Definition cvalue (X : vec) (e : scut) : row13 := match fold_left merge_sub (csubs X e) (Ok (fun _ => 0)) with Ok v => v | Fault _ => fun _ => 0 end.
Lemma cvalue_shows X e : fold_left merge_sub (csubs X e) (Ok (fun _ => 0)) = Ok (cvalue X e) /\ shows0 (flat_map snd (csubs X e)) (cvalue X e).
Proof.
  destruct (merge_ok (csubs X e) [] (fun _ => 0)) as (v & E & S); [|unfold cvalue; change (@Ok (nat -> R)) with (@Ok row13) in *; rewrite E; auto].
  split; [|split].
  - intros i _. split; [auto|]. intros w [].
  - intros i _. split; [auto|]. intros w [].
  - split; [auto|]. split; [lra|]. intros w [].
Qed.
Definition cset (X : vec) (F : nat -> row13) (e : scut) : nat -> row13 := if sc_pos e then set13 F (sc_id e) (cvalue X e) else F.
Definition cgood (X : vec) (e : scut) : Prop := sc_pos e = true -> sc_part e = true /\ NoDup (map fst (sc_hi e)) /\
  forall s, In s (sc_hi e) -> snd s (csol X e) <> [].
Lemma scut_ok X F e : cgood X e -> scut_step X (Ok F) e = Ok (cset X F e).
Proof.
  intros G. unfold scut_step, cset. cbn [bind]. destruct (sc_pos e) eqn:P; auto. destruct (G P) as (Pa & N & H). cbn [negb]. rewrite Pa.
  fold (csol X e). fold (csubs X e).
  assert (A : fold_left add_sub (csubs X e) (Ok []) = Ok (csubs X e)).
  { apply (add_subs (csubs X e) []).
    - cbn [app]. unfold csubs. rewrite map_map. exact N.
    - unfold csubs. intros s Hs. apply in_map_iff in Hs. destruct Hs as (u & <- & Hu). cbn. auto. }
  rewrite A. cbn [bind]. unfold csubs at 1. rewrite map_length, Nat.eqb_refl. cbn [assert_]. rewrite (proj1 (cvalue_shows X e)). reflexivity.
Qed.
Lemma cfold_ok X es : forall F, (forall e, In e es -> cgood X e) -> fold_left (scut_step X) es (Ok F) = Ok (fold_left (cset X) es F).
Proof. induction es as [|e es IH]; intros F H; [reflexivity|]. cbn [fold_left]. rewrite scut_ok by (apply H; now left). apply IH. intros; apply H; now right. Qed.
Lemma cranks_fold X (rs : list (list scut)) : forall st, fold_left (fun st es => fold_left (scut_step X) es st) rs st = fold_left (scut_step X) (concat rs) st.
Proof. induction rs as [|es rs IH]; intros st; [reflexivity|]. cbn. rewrite fold_left_app. apply IH. Qed.
Lemma cset_out X es : forall F id, ~ In id (map sc_id es) -> fold_left (cset X) es F id = F id.
Proof.
  induction es as [|e es IH]; intros F id H; [reflexivity|]. cbn [fold_left]. rewrite IH by (intros C; apply H; now right).
  unfold cset. destruct (sc_pos e); auto. unfold set13. destruct (Nat.eqb_spec id (sc_id e)); auto. exfalso. apply H. now left.
Qed.
Lemma cset_in X es : forall F e, NoDup (map sc_id es) -> In e es ->
  fold_left (cset X) es F (sc_id e) = if sc_pos e then cvalue X e else F (sc_id e).
Proof.
  induction es as [|a es IH]; intros F e N I; [destruct I|]. inversion N; subst. cbn [fold_left]. destruct I as [->|I].
  - rewrite cset_out by auto. unfold cset. destruct (sc_pos e); auto. unfold set13. now rewrite Nat.eqb_refl.
  - rewrite IH by auto. destruct (sc_pos e); auto. unfold cset. destruct (sc_pos a); auto. unfold set13.
    destruct (Nat.eqb_spec (sc_id e) (sc_id a)) as [E|]; auto. exfalso. apply H1. rewrite <- E. now apply in_map.
Qed.
Lemma cfault X es f : fold_left (scut_step X) es (Fault f) = Fault f.
Proof. induction es; auto. Qed.
Lemma add_cases l : forall m, (exists m', fold_left add_sub l (Ok m) = Ok m') \/ fold_left add_sub l (Ok m) = Fault AssertFailed.
Proof.
  assert (Ff : forall l f, fold_left add_sub l (Fault f) = Fault f) by (intros l'; induction l'; auto).
  induction l as [|s l IH]; intros m; [cbn; eauto|]. cbn [fold_left]. unfold add_sub at 2 4. cbn [bind].
  destruct (snd s); [apply IH|]. destruct (existsb _ m); [right; apply Ff|apply IH].
Qed.
Lemma merge_total l : forall a, exists v, fold_left merge_sub l (Ok a) = Ok v.
Proof.
  induction l as [|s l IH]; intros a; [cbn; eauto|]. cbn [fold_left]. unfold merge_sub at 2. cbn [bind].
  destruct (max_any None (snd s)) as (e & t & m & ->). cbn [bind]. apply IH.
Qed.
Lemma scut_cases X F e : (exists F', scut_step X (Ok F) e = Ok F') \/ scut_step X (Ok F) e = Fault AssertFailed.
Proof.
  unfold scut_step. cbn [bind]. destruct (sc_pos e); cbn [negb]; [|eauto].
  match goal with |- context [fold_left add_sub ?l (Ok [])] => destruct (add_cases l []) as [(m & ->)| ->]; [|auto] end. cbn [bind].
  unfold assert_. destruct (_ =? _)%nat; [|auto]. destruct (merge_total m (fun _ => 0)) as (v & E). change (@Ok (nat -> R)) with (@Ok row13) in *. rewrite E. cbn. eauto.
Qed.
Lemma scut_absent X es : forall F e, In e es -> sc_pos e = true -> sc_part e = false -> sc_hi e <> [] ->
  fold_left (scut_step X) es (Ok F) = Fault AssertFailed.
Proof.
  induction es as [|a es IH]; intros F e I P Q N; [destruct I|]. cbn [fold_left]. destruct I as [->|I].
  - unfold scut_step at 2. cbn [bind]. rewrite P, Q. cbn [negb fold_left bind]. destruct (sc_hi e); [contradiction|]. cbn. apply cfault.
  - destruct (scut_cases X F a) as [(F' & ->)| ->]; [eapply IH; eauto|apply cfault].
Qed.
