(** Lemmas for C194, C195: the PK solver. *)
From Coq Require Import Reals List Arith Lia Lra Bool Permutation Sorted.
From Verif Require Import Base BaseLemmas Flut_Model Flut_Spec Flut_Proofs Flut_Proofs2 Flut_Proofs3 Ufl_Model Ufl_Spec Ufl_Proofs Ufl_Proofs2 Ufl_Proofs3.
Import ListNotations.
Open Scope R_scope.

(** ** the pencil *)
Lemma csum_app n p f : csum (n + p) f = cadd (csum n f) (csum p (fun i => f (n + i)%nat)).
Proof.
  induction p as [|p IH]; [rewrite Nat.add_0_r; cbn [csum]; change (@pair R R 0 0) with c0; ring|]. rewrite Nat.add_succ_r. cbn [csum]. rewrite IH. ring.
Qed.
Lemma csum_pick n f i : (i < n)%nat -> csum n (fun j => cmul (ident i j) (f j)) = f i.
Proof.
  intros Hi. rewrite (csum_single n i); auto.
  - unfold ident. rewrite Nat.eqb_refl. destruct (f i); unfold cmul; simpl; f_equal; ring.
  - intros j Hj Hne. unfold ident. destruct (Nat.eqb_spec i j); [congruence|]. destruct (f j); unfold cmul, c0; simpl; f_equal; ring.
Qed.
Lemma csum_zero' n f : (forall i, (i < n)%nat -> f i = c0) -> csum n f = c0.
Proof. intros H. rewrite (csum_ext n f (fun _ => c0)) by auto. apply csum_zero. Qed.
Definition pkA (n : nat) (rho v : R) (k : rmat) (a : cmat) : cmat := fun i j =>
  if (i <? n)%nat then if (j <? n)%nat then c0 else ident i (j - n)
  else if (j <? n)%nat then cadd (cscal (-1) (k (i - n)%nat j, 0)) (cscal (rho / 2 * v * v) (cscal (-1) (a (i - n)%nat j))) else c0.
Definition pkB (n : nat) (m : rmat) : cmat := fun i j =>
  if (i <? n)%nat then if (j <? n)%nat then ident i j else c0 else if (j <? n)%nat then c0 else (m (i - n)%nat (j - n)%nat, 0).
Lemma pk_matrices_blocks n rho v m k a A B A0 B0 : rows A0 = (2 * n)%nat -> cols A0 = (2 * n)%nat -> rows B0 = (2 * n)%nat -> cols B0 = (2 * n)%nat ->
  (forall i j, ent A0 i j = c0) -> (forall i j, ent B0 i j = c0) -> pk_matrices n rho v m k a A0 B0 = Ok (A, B) ->
  forall i j, (i < 2 * n)%nat -> (j < 2 * n)%nat -> ent A i j = pkA n rho v k a i j /\ ent B i j = pkB n m i j.
Proof.
  intros R1 C1 R2 C2 ZA ZB. unfold pk_matrices, set_block. rewrite ?R1, ?C1, ?R2, ?C2. replace (2 * n - n)%nat with n by lia.
  repeat match goal with |- context [if ?c then Ok _ else _] => destruct c; [|discriminate] end. cbn [bind rows cols ent].
  rewrite ?R1, ?C1, ?R2, ?C2. replace (2 * n - n)%nat with n by lia.
  repeat match goal with |- context [if ?c then Ok _ else _] => destruct c; [|discriminate] end. cbn [bind rows cols ent].
  repeat match goal with |- context [if ?c then Ok _ else _] => destruct c; [|discriminate] end. cbn [bind rows cols ent].
  rewrite ?R1, ?C1, ?R2, ?C2. replace (2 * n - n)%nat with n by lia.
  repeat match goal with |- context [if ?c then Ok _ else _] => destruct c; [|discriminate] end. cbn [bind rows cols ent].
  intros E i j Hi Hj. injection E as <- <-. cbn [ent]. rewrite ZA, ZB. unfold pkA, pkB. rewrite !Nat.sub_0_r.
  repeat match goal with
  | |- context [(?a <=? ?b)%nat] => destruct (Nat.leb_spec a b); try lia
  | |- context [(?a <? ?b)%nat] => destruct (Nat.ltb_spec a b); try lia
  end; cbn [andb]; auto.
Qed.
Lemma pk_pencil n rho v m k a A B A0 B0 num den x : rows A0 = (2 * n)%nat -> cols A0 = (2 * n)%nat -> rows B0 = (2 * n)%nat -> cols B0 = (2 * n)%nat ->
  (forall i j, ent A0 i j = c0) -> (forall i j, ent B0 i j = c0) -> pk_matrices n rho v m k a A0 B0 = Ok (A, B) ->
  den <> c0 -> eigenpair (2 * n) (ent A) (ent B) num den x ->
  (forall i, (i < n)%nat -> x (n + i)%nat = cmul (cdiv num den) (x i)) /\ pk_equation n rho v m k a (cdiv num den) x.
Proof.
  intros R1 C1 R2 C2 ZA ZB E Hd He. assert (Bl := pk_matrices_blocks _ _ _ _ _ _ _ _ _ _ R1 C1 R2 C2 ZA ZB E).
  assert (El := cdiv_mul num den Hd). set (p := cdiv num den) in *. clearbody p.
  assert (He' : forall i, (i < 2 * n)%nat -> cmv (2 * n) (pkA n rho v k a) x i = cmul p (cmv (2 * n) (pkB n m) x i)).
  { intros i Hi. apply (cmul_cancel den); auto. assert (X := He i Hi). unfold cmv in *.
    rewrite (csum_ext _ (fun j => cmul (pkA n rho v k a i j) (x j)) (fun j => cmul (ent A i j) (x j))) by (intros j Hj; now rewrite (proj1 (Bl i j Hi Hj))).
    rewrite (csum_ext _ (fun j => cmul (pkB n m i j) (x j)) (fun j => cmul (ent B i j) (x j))) by (intros j Hj; now rewrite (proj2 (Bl i j Hi Hj))).
    rewrite X, <- El. ring. }
  assert (T : forall i, (i < n)%nat -> x (n + i)%nat = cmul p (x i)).
  { intros i Hi. assert (X := He' i ltac:(lia)). unfold cmv in X. replace (2 * n)%nat with (n + n)%nat in X by lia. rewrite !csum_app in X.
    rewrite (csum_zero' n (fun j => cmul (pkA n rho v k a i j) (x j))) in X.
    2: { intros j Hj. unfold pkA. destruct (Nat.ltb_spec i n); [|lia]. destruct (Nat.ltb_spec j n); [|lia]. ring. }
    rewrite (csum_ext n (fun j => cmul (pkA n rho v k a i (n + j)%nat) (x (n + j)%nat)) (fun j => cmul (ident i j) (x (n + j)%nat))) in X.
    2: { intros j Hj. unfold pkA. destruct (Nat.ltb_spec i n); [|lia]. destruct (Nat.ltb_spec (n + j) n); [lia|]. now replace (n + j - n)%nat with j by lia. }
    rewrite (csum_pick n (fun j => x (n + j)%nat) i Hi) in X.
    rewrite (csum_ext n (fun j => cmul (pkB n m i j) (x j)) (fun j => cmul (ident i j) (x j))) in X.
    2: { intros j Hj. unfold pkB. destruct (Nat.ltb_spec i n); [|lia]. destruct (Nat.ltb_spec j n); [auto|lia]. }
    rewrite (csum_pick n x i Hi) in X. rewrite (csum_zero' n (fun j => cmul (pkB n m i (n + j)%nat) _)) in X.
    2: { intros j Hj. unfold pkB. destruct (Nat.ltb_spec i n); [|lia]. destruct (Nat.ltb_spec (n + j) n); [lia|]. ring. }
    transitivity (cadd c0 (x (n + i)%nat)); [ring|]. rewrite X. ring. }
  split; [exact T|]. intros i Hi. assert (X := He' (n + i)%nat ltac:(lia)). unfold cmv in X. replace (2 * n)%nat with (n + n)%nat in X by lia. rewrite !csum_app in X.
  rewrite (csum_zero' n (fun j => cmul (pkA n rho v k a (n + i)%nat (n + j)%nat) _)) in X.
  2: { intros j Hj. unfold pkA. destruct (Nat.ltb_spec (n + i) n); [lia|]. destruct (Nat.ltb_spec (n + j) n); [lia|]. ring. }
  rewrite (csum_zero' n (fun j => cmul (pkB n m (n + i)%nat j) (x j))) in X.
  2: { intros j Hj. unfold pkB. destruct (Nat.ltb_spec (n + i) n); [lia|]. destruct (Nat.ltb_spec j n); [ring|lia]. }
  rewrite (csum_ext n (fun j => cmul (pkA n rho v k a (n + i)%nat j) (x j))
     (fun j => csub (cscal (-1) (cscal (k i j) (x j))) (cscal (rho / 2 * v ^ 2) (cmul (a i j) (x j))))) in X.
  2: { intros j Hj. unfold pkA. destruct (Nat.ltb_spec (n + i) n); [lia|]. destruct (Nat.ltb_spec j n); [|lia]. replace (n + i - n)%nat with i by lia.
       generalize (k i j), (a i j), (x j), (rho / 2). cring. }
  rewrite (csum_ext n (fun j => cmul (pkB n m (n + i)%nat (n + j)%nat) (x (n + j)%nat)) (fun j => cmul p (cscal (m i j) (x j)))) in X.
  2: { intros j Hj. unfold pkB. destruct (Nat.ltb_spec (n + i) n); [lia|]. destruct (Nat.ltb_spec (n + j) n); [lia|]. rewrite T by auto.
       replace (n + i - n)%nat with i by lia. replace (n + j - n)%nat with j by lia. generalize (m i j), (x j), p. cring. }
  rewrite csum_sub, !csum_scal, csum_mul_l in X.
  set (Sm := csum n (fun j => cscal (m i j) (x j))) in *. set (Sk := csum n (fun j => cscal (k i j) (x j))) in *. set (Sa := csum n (fun j => cmul (a i j) (x j))) in *.
  clearbody Sm Sk Sa. set (q := rho / 2 * v ^ 2) in *. clearbody q.
  transitivity (cadd (cmul p (cadd c0 (cmul p Sm))) (cadd Sk (cscal q Sa))); [ring|]. rewrite <- X.
  destruct Sk, Sa. unfold cadd, csub, cscal, c0; simpl. f_equal; ring.
Qed.
Lemma pk_matrices_empty n rho v m k a : (0 < n)%nat -> pk_matrices n rho v m k a (mkMat 0 0 (fun _ _ => (0, 0))) (mkMat 0 0 (fun _ _ => (0, 0))) = Fault OutOfBounds.
Proof. intros H. unfold pk_matrices, set_block. cbn [rows cols]. destruct (Nat.leb_spec n 0); [lia|]. reflexivity. Qed.
Lemma loop_fault {A} (f : nat -> A -> outcome A) a e : f 0%nat a = Fault e -> forall n, loop (S n) f a = Fault e.
Proof. intros H. induction n as [|n IH]; [simpl; now rewrite H|]. cbn [loop] in *. now rewrite IH. Qed.

(** ** the store *)
Lemma kfind_in v s m : kfind v m = Some s -> exists j, j = v /\ In (j, s) m.
Proof.
  induction m as [|[j x] m IH]; [discriminate|]. simpl. destruct (rlt_spec v j), (rlt_spec j v); simpl; intros E;
    try (destruct (IH E) as (j' & -> & Hin); exists v; auto). inversion E; subst. exists j. split; [lra|auto].
Qed.
Lemma kfind_none v m : kfind v m = None <-> ~ In v (map fst m).
Proof.
  induction m as [|[j x] m IH]; [simpl; tauto|]. simpl.
  assert (X : negb (rlt v j) && negb (rlt j v) = true <-> j = v) by (destruct (rlt_spec v j), (rlt_spec j v); simpl; split; intros; try discriminate; auto; lra).
  destruct (negb (rlt v j) && negb (rlt j v)); [split; [discriminate|intros H; exfalso; apply H; left; tauto]|].
  rewrite IH. split; [intros H [K|K]; [apply X in K; discriminate|auto]|intros H K; auto].
Qed.
Lemma pk_merge_same k old new : length old = length new -> Forall (fun r => 0 <= k_kr r) old -> pk_merge k old new = old.
Proof.
  unfold pk_merge. revert new. induction old as [|o old IH]; intros [|n new] Hl Hf; try discriminate; auto. inversion Hf; subst. simpl.
  f_equal; [|apply IH; simpl in Hl; auto]. rewrite (Rabs_right (k_kr o)) by lra. replace (k_kr o - k_kr o) with 0 by ring. rewrite Rabs_R0.
  destruct (rlt_spec (Rabs (Rabs (k_kr n) - k)) 0) as [H|]; auto. assert (X := Rabs_pos (Rabs (k_kr n) - k)). lra.
Qed.
Lemma kreplace_same k s m : kfind k m = Some s -> kreplace k s m = m.
Proof.
  induction m as [|[j x] m IH]; [discriminate|]. simpl. destruct (negb (rlt k j) && negb (rlt j k)).
  - intros E; inversion E; auto.
  - intros E. now rewrite IH.
Qed.
Lemma pk_insert_existing k s m old : kfind (k_ref s) m = Some old -> length (k_roots old) = length (k_roots s) ->
  Forall (fun r => 0 <= k_kr r) (k_roots old) -> pk_insert k s m = Ok m.
Proof.
  intros Hf Hl Hp. unfold pk_insert. rewrite Hf. unfold assert_. rewrite Hl, Nat.eqb_refl. rewrite pk_merge_same by auto.
  rewrite (kreplace_same _ (mkKs (k_ref old) (k_roots old))); [reflexivity|]. destruct old; exact Hf.
Qed.
Lemma kfind_insert v s m m' : kinsert v s m = Ok m' -> forall u, kfind u m' = if Req_EM_T u v then Some s else kfind u m.
Proof.
  revert m'. induction m as [|[j x] m IH]; simpl; intros m'.
  - intros E u; inversion E; subst. simpl. destruct (Req_EM_T u v), (rlt_spec u v), (rlt_spec v u); simpl; auto; lra.
  - destruct (rlt_spec v j) as [Hv|Hv].
    + intros E u; inversion E; subst. cbn [kfind]. destruct (Req_EM_T u v), (rlt_spec u v), (rlt_spec v u); simpl; auto; lra.
    + destruct (rlt_spec j v) as [Hj|Hj]; [|discriminate]. destruct (kinsert v s m) as [t|] eqn:E1; simpl; [|discriminate].
      intros E u; inversion E; subst. cbn [kfind]. rewrite (IH t eq_refl u).
      destruct (Req_EM_T u v), (rlt_spec u j), (rlt_spec j u); simpl; auto; lra.
Qed.
Lemma history_first N h : Forall (fun e => length (k_roots (snd e)) = N /\ Forall (fun r => 0 <= k_kr r) (k_roots (snd e))) h ->
  forall m m', Forall (fun e => length (k_roots (snd e)) = N /\ Forall (fun r => 0 <= k_kr r) (k_roots (snd e))) m ->
  pk_history h m = Ok m' -> forall v, kfind v m' = match kfind v m with Some s => Some s | None => first_at v h end.
Proof.
  induction 1 as [|[k s] h (L & P) Hh IH]; intros m m' Hm; cbn [pk_history first_at].
  - intros E v; inversion E; subst. destruct (kfind v m'); auto.
  - cbn [snd] in *. destruct (kfind (k_ref s) m) as [old|] eqn:Ef.
    + assert (X := kfind_in _ _ _ Ef). destruct X as (j & -> & Hin). rewrite Forall_forall in Hm. assert (Y := Hm _ Hin). cbn [snd] in Y. destruct Y as (Y1 & Y2).
      rewrite (pk_insert_existing k s m old Ef) by (auto; congruence). cbn [bind]. intros E v. rewrite (IH m m'); auto; [|apply Forall_forall; auto].
      destruct (kfind v m) eqn:Ev; auto. destruct (Req_EM_T (k_ref s) v); [congruence|auto].
    + unfold pk_insert. rewrite Ef. destruct (kinsert (k_ref s) s m) as [m1|] eqn:E1; cbn [bind]; [|discriminate].
      intros E v. rewrite (IH m1 m'); auto.
      * rewrite (kfind_insert _ _ _ _ E1). destruct (Req_EM_T v (k_ref s)) as [->|].
        -- rewrite Ef. destruct (Req_EM_T (k_ref s) (k_ref s)); congruence.
        -- destruct (kfind v m); auto. destruct (Req_EM_T (k_ref s) v); congruence.
      * apply kinsert_in in E1. rewrite E1. constructor; auto.
Qed.
Lemma history_total N h : Forall (fun e => length (k_roots (snd e)) = N /\ Forall (fun r => 0 <= k_kr r) (k_roots (snd e))) h ->
  forall m, Forall (fun e => length (k_roots (snd e)) = N /\ Forall (fun r => 0 <= k_kr r) (k_roots (snd e))) m -> exists m', pk_history h m = Ok m'.
Proof.
  induction 1 as [|[k s] h (L & P) Hh IH]; intros m Hm; cbn [pk_history]; [eauto|]. cbn [snd] in *.
  destruct (kfind (k_ref s) m) as [old|] eqn:Ef.
  - assert (X := kfind_in _ _ _ Ef). destruct X as (j & -> & Hin). assert (Hm' := Hm). rewrite Forall_forall in Hm'. assert (Y := Hm' _ Hin). cbn [snd] in Y. destruct Y as (Y1 & Y2).
    rewrite (pk_insert_existing k s m old Ef) by (auto; congruence). cbn [bind]. auto.
  - unfold pk_insert. rewrite Ef. apply kfind_none in Ef. destruct (kinsert_ok (k_ref s) s m Ef) as (m1 & E1). rewrite E1. cbn [bind].
    apply IH. apply kinsert_in in E1. rewrite E1. constructor; auto.
Qed.

(** ** the scan *)
Section S.
  Variables (N : nat) (analyze : R -> R -> option ksol -> ksol).
  Hypothesis Ho : pk_oracle N analyze.
  Let an (k v : R) (p : option ksol) : outcome ksol := Ok (analyze k v p).
  Variables (vlo vhi : R) (nv : nat).
  Hypothesis Hv : vlo < vhi.
  Variable khi : R.
  Hypothesis Hk : 0 <= khi.
  Fixpoint psweep (k : nat) : kmap * option ksol :=
    match k with
    | O => ([], None)
    | S i => let a := psweep i in let s := analyze khi (V_val vlo vhi nv i) (snd a) in (fst a ++ [(V_val vlo vhi nv i, s)], Some s)
    end.
  Lemma psweep_keys k : map fst (fst (psweep k)) = map (V_val vlo vhi nv) (seq 0 k).
  Proof. induction k as [|k IH]; [reflexivity|]. rewrite seq_S. cbn [psweep fst]. rewrite !map_app, IH. reflexivity. Qed.
  Definition stored (e : R * ksol) : Prop := k_ref (snd e) = fst e /\ length (k_roots (snd e)) = N /\ Forall (fun r => k_kr r = khi) (k_roots (snd e)).
  Lemma psweep_stored k : Forall stored (fst (psweep k)).
  Proof.
    induction k as [|k IH]; [constructor|]. cbn [psweep fst]. apply Forall_app. split; auto. constructor; [|constructor]. unfold stored. cbn [fst snd].
    destruct (Ho khi (V_val vlo vhi nv k) (snd (psweep k))) as (E & L & F). split; [auto|]. split; [auto|]. eapply Forall_impl; [|exact F]. simpl; tauto.
  Qed.
  Lemma kinsert_last v s m : Forall (fun e => fst e < v) m -> kinsert v s m = Ok (m ++ [(v, s)]).
  Proof.
    induction 1 as [|[k x] m Hk' Hm IH]; simpl; auto. simpl in Hk'. destruct (rlt_spec v k); [lra|]. destruct (rlt_spec k v); [|lra]. rewrite IH. reflexivity.
  Qed.
  Lemma first_pass k : (k <= S nv)%nat -> loop k (fun i (a : kmap * option ksol) =>
           let v := V_val vlo vhi nv i in
           sol <- an khi v (snd a) ;;
           m <- pk_insert khi sol (fst a) ;;
           match kfind v m with None => Fault AssertFailed | Some s => Ok (m, Some s) end) ([], None) = Ok (psweep k).
  Proof.
    match goal with |- _ -> loop k ?b _ = _ => set (body := b) end.
    induction k as [|k IH]; intros Hk'; [reflexivity|]. cbn [loop]. rewrite IH by lia. cbn [bind]. unfold body, an. cbv zeta. cbn [bind].
    assert (E := proj1 (Ho khi (V_val vlo vhi nv k) (snd (psweep k)))). unfold pk_insert. rewrite E.
    assert (F : Forall (fun e => fst e < V_val vlo vhi nv k) (fst (psweep k))).
    { apply Forall_forall. intros e He. apply (in_map fst) in He. rewrite psweep_keys in He.
      apply in_map_iff in He. destruct He as (j & <- & Hj). apply in_seq in Hj. apply V_val_mono; auto; lia. }
    assert (Nf : kfind (V_val vlo vhi nv k) (fst (psweep k)) = None).
    { apply kfind_none. intros Hin. apply in_map_iff in Hin. destruct Hin as (e & Ee & He). rewrite Forall_forall in F. specialize (F e He). lra. }
    rewrite Nf. assert (E1 := kinsert_last _ (analyze khi (V_val vlo vhi nv k) (snd (psweep k))) _ F). rewrite E1. cbn [bind].
    rewrite (kfind_insert _ _ _ _ E1). destruct (Req_EM_T _ _); [|congruence]. reflexivity.
  Qed.
  Lemma later_pass kr m p0 : Forall stored m -> (forall i, (i <= nv)%nat -> In (V_val vlo vhi nv i) (map fst m)) ->
    forall k, (k <= S nv)%nat -> exists p, loop k (fun i (a : kmap * option ksol) =>
           let v := V_val vlo vhi nv i in
           sol <- an kr v (snd a) ;;
           m <- pk_insert kr sol (fst a) ;;
           match kfind v m with None => Fault AssertFailed | Some s => Ok (m, Some s) end) (m, p0) = Ok (m, p).
  Proof.
    intros Hs Hin. match goal with |- forall k, _ -> exists p, loop k ?b _ = _ => set (body := b) end.
    induction k as [|k IH]; intros Hk'; [simpl; eauto|]. destruct IH as (p & E); [lia|]. cbn [loop]. rewrite E. cbn [bind]. unfold body, an. cbv zeta. cbn [bind fst snd].
    destruct (Ho kr (V_val vlo vhi nv k) p) as (Er & L & _).
    destruct (kfind (V_val vlo vhi nv k) m) as [old|] eqn:Ef.
    2: { apply kfind_none in Ef. exfalso. apply Ef, Hin. lia. }
    assert (X := kfind_in _ _ _ Ef). destruct X as (j & -> & Hin'). rewrite Forall_forall in Hs. assert (Y := Hs _ Hin'). destruct Y as (Y1 & Y2 & Y3). cbn [snd] in *.
    rewrite (pk_insert_existing _ _ _ old).
    - cbn [bind]. rewrite Ef. eauto.
    - rewrite Er. exact Ef.
    - congruence.
    - eapply Forall_impl; [|exact Y3]. simpl. intros; lra.
  Qed.
  Lemma pass_first : pk_pass an vlo vhi nv khi [] = Ok (fst (psweep (S nv))).
  Proof. unfold pk_pass. assert (F := first_pass (S nv) ltac:(lia)). match goal with |- bind ?e _ = _ => change e with (loop (S nv) (fun i (a : kmap * option ksol) =>
           let v := V_val vlo vhi nv i in
           sol <- an khi v (snd a) ;;
           m <- pk_insert khi sol (fst a) ;;
           match kfind v m with None => Fault AssertFailed | Some s => Ok (m, Some s) end) ([], None)) end. rewrite F. reflexivity. Qed.
  Lemma pass_later kr m : Forall stored m -> (forall i, (i <= nv)%nat -> In (V_val vlo vhi nv i) (map fst m)) -> pk_pass an vlo vhi nv kr m = Ok m.
  Proof. intros Hs Hi. unfold pk_pass. destruct (later_pass kr m None Hs Hi (S nv) ltac:(lia)) as (p & F). match goal with |- bind ?e _ = _ => change e with (loop (S nv) (fun i (a : kmap * option ksol) =>
           let v := V_val vlo vhi nv i in
           sol <- an kr v (snd a) ;;
           m <- pk_insert kr sol (fst a) ;;
           match kfind v m with None => Fault AssertFailed | Some s => Ok (m, Some s) end) (m, None)) end. rewrite F. reflexivity. Qed.
  Lemma scan_first klo nk : (0 < nk)%nat -> pk_scan an vlo vhi nv klo khi nk = Ok (fst (psweep (S nv))).
  Proof.
    intros Hn. unfold pk_scan. assert (X : forall k, loop (S k) (fun j m => pk_pass an vlo vhi nv (kr_val klo khi nk j) m) [] = Ok (fst (psweep (S nv)))).
    { induction k as [|k IH].
      - cbn [loop bind]. replace (kr_val klo khi nk 0) with khi.
        + apply pass_first.
        + unfold kr_val. destruct (Nat.eqb_spec 0 nk); [lia|]. simpl. ring.
      - cbn [loop] in IH |- *. rewrite IH. cbn [bind]. apply pass_later.
        + apply psweep_stored.
        + intros i Hi. rewrite psweep_keys. apply in_map, in_seq. lia. }
    apply X.
  Qed.
End S.
