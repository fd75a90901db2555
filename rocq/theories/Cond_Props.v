(** Properties C43-C45 and C69: condensation of cut elements and material patches. *)
From Coq Require Import List Arith Lia Bool Reals Lra Permutation Sorted.
From Verif Require Import Base BaseLemmas RBool Cond_Model Cond_Spec Cond_Proofs Cond_Proofs2.
Import ListNotations.
Open Scope nat_scope.

(** C43.  With empty lists passed in, the local dofs 0 .. n_vars*n_nodes-1 are split into two
    strictly increasing lists, together a rearrangement of all dofs, void being exactly the dofs of
    nodes with negative level set. *)
Theorem C43_partition_exact : forall e, e_quad4 e = true -> e_lagrange e = true ->
  exists m v, partition_local e [] [] = Ok (m, v) /\
    StronglySorted lt m /\ StronglySorted lt v /\
    Permutation (m ++ v) (seq 0 (e_vars e * e_nodes e)) /\
    (forall k, In k v <-> k < e_vars e * e_nodes e /\ (e_phi e (node_of_dof e k) < 0)%R) /\
    (forall k, In k m <-> k < e_vars e * e_nodes e /\ (0 <= e_phi e (node_of_dof e k))%R).
Proof.
  intros e Q L. destruct (partition_ok e Q L) as [m [v [E [S1 [S2 [I1 I2]]]]]].
  exists m, v. split; auto. split; auto. split; auto. split; [|auto].
  apply (partition_perm e m v E).
Qed.

(** Global numbers: each global dof of the element is listed once, on the right side. *)
Theorem C43_global_partition : forall e ids, e_quad4 e = true -> e_lagrange e = true ->
  len ids = e_vars e * e_nodes e ->
  exists m v, partition_global e ids [] [] = Ok (m, v) /\
    Permutation (m ++ v) (map (cell ids) (seq 0 (e_vars e * e_nodes e))) /\
    (forall g, In g v <-> exists k, k < e_vars e * e_nodes e /\ cell ids k = g /\
                          (e_phi e (node_of_dof e k) < 0)%R).
Proof.
  intros e ids Q L Hl. destruct (partition_ok e Q L) as [m [v [E [_ [_ [I1 I2]]]]]].
  assert (G : forall l, (forall k, In k l -> k < len ids) -> to_global ids l = Ok (map (cell ids) l)).
  { induction l as [|k t IH]; intro H; simpl; auto.
    rewrite get_ok by (apply H; now left). cbn [bind]. rewrite IH by (intros; apply H; now right).
    reflexivity. }
  exists (map (cell ids) m), (map (cell ids) v). unfold partition_global. rewrite E.
  cbn [bind fst snd]. rewrite G by (intros k Hk; apply I1 in Hk; lia). cbn [bind].
  rewrite G by (intros k Hk; apply I2 in Hk; lia). cbn [bind]. split; auto. split.
  - rewrite <- map_app. apply Permutation_map, (partition_perm e m v E).
  - intro g. rewrite in_map_iff. split.
    + intros [k [<- Hk]]. apply I2 in Hk as [A B]. eauto.
    + intros [k [A [<- B]]]. exists k. split; auto. apply I2. auto.
Qed.

(** The lists are appended to, not cleared: a second call with the same lists lists every dof
    twice. *)
Theorem C43_reused_lists_refuted : forall e m v, partition_local e [] [] = Ok (m, v) ->
  0 < e_vars e * e_nodes e ->
  exists m' v', partition_local e m v = Ok (m', v') /\
    length (m' ++ v') = 2 * (e_vars e * e_nodes e).
Proof.
  intros e m v H Hp. destruct (partition_perm e m v H) as [P _].
  assert (L : length (m ++ v) = e_vars e * e_nodes e)
    by (rewrite (Permutation_length P); apply seq_length).
  unfold partition_local in *. destruct (e_quad4 e); [|discriminate].
  destruct (e_lagrange e); [|discriminate]. cbn [assert_] in *. cbv zeta in *.
  rewrite push_all in *. cbn [fst snd app] in H. injection H as Hm Hv.
  cbn [fst snd]. do 2 eexists. split; [reflexivity|].
  rewrite app_length in *. rewrite !(Permutation_length (sort_perm _)), !app_length.
  rewrite <- Hm, <- Hv in L. rewrite <- Hm, <- Hv.
  rewrite !(Permutation_length (sort_perm _)) in *. lia.
Qed.

(** C44.  For every element Jacobian with invertible void block: any increment whose material part
    solves the condensed system, completed by the recovery of the void dofs, solves the whole
    element system  jac dx = -res.  The material dofs of the stored solution are left alone. *)
Theorem C44_condensation : forall lu e jac res sol dsol m v,
  partition_local e [] [] = Ok (m, v) -> 0 < length m -> 0 < length v ->
  let n := e_vars e * e_nodes e in
  rows jac = n -> cols jac = n -> len res = n -> len sol = n -> len dsol = n ->
  void_invertible v jac -> lu_solves lu v jac ->
  exists D r w, factored_residual_and_jacobian lu e jac res = Ok (m, D, r) /\
    rows D = length m /\ cols D = length m /\ len r = length m /\
    recover lu e res jac sol dsol = Ok w /\ len w = n /\
    (forall k, In k m -> cell w k = cell sol k) /\
    ((forall i, i < length m ->
        sum (length m) (fun j => ent D i j * cell dsol (nth j m 0%nat))%R = (- cell r i)%R) ->
     forall dx : nat -> R, (forall k, In k m -> dx k = cell dsol k) ->
       (forall k, In k v -> dx k = (cell w k - cell sol k)%R) ->
       forall i, i < n -> sum n (fun k => ent jac i k * dx k)%R = (- cell res i)%R).
Proof.
  intros lu e jac res sol dsol m v Hp Pm Pv n Hr Hc Hres Hsol Hds Hinv Hlu.
  destruct (factored_ok lu e m v Hp jac Hr Hc Hinv Hlu res Hres)
    as [M [D [r [_ [EF [RM [CM [[ff [Eff EM]] [RD [CD [Lr [AD Ar]]]]]]]]]]]].
  destruct (recover_ok lu e m v Hp jac Hr Hc Hinv Hlu res Hres sol dsol Hsol Hds Pm Pv)
    as [M' [w [[ff' [Eff' EM']] [EW [Lw [Am Av]]]]]].
  rewrite Eff in Eff'. injection Eff' as <-. rewrite EM in EM'. injection EM' as <-.
  destruct (void_inverse lu e m v Hp jac Hr Hc Hinv Hlu ff Eff) as [M2 [EM2 [_ [_ AI]]]].
  rewrite EM in EM2. injection EM2 as <-.
  destruct (partition_perm e m v Hp) as [P [Nm [Nv [Im Iv]]]].
  exists D, r, w. split; auto. split; auto. split; auto. split; auto. split; auto. split; auto.
  split.
  { intros k Hk. apply Am. intro K. apply Im in Hk. apply Iv in K. lra. }
  intros Hsys dx Dm Dv i Hi.
  destruct (condense (length m) (length v)
    (fun i j => ent jac (nth i m 0) (nth j m 0)) (fun i j => ent jac (nth i m 0) (nth j v 0))
    (fun i j => ent jac (nth i v 0) (nth j m 0)) (fun i j => ent jac (nth i v 0) (nth j v 0))
    (ent M) (fun i => cell res (nth i m 0)) (fun i => cell res (nth i v 0))
    (fun i => cell dsol (nth i m 0)) AI) as [CU CF].
  { intros a Ha. rewrite <- (Ar a Ha), <- (Hsys a Ha). apply sum_ext. intros j Hj.
    now rewrite AD. }
  assert (S : forall a, sum n (fun k => ent jac a k * dx k)%R =
    (sum (length m) (fun j => ent jac a (nth j m 0%nat) * cell dsol (nth j m 0%nat)) +
     sum (length v) (fun j => ent jac a (nth j v 0%nat) *
       sum (length v) (fun l => ent M j l * (- cell res (nth l v 0%nat) -
           sum (length m) (fun j => ent jac (nth l v 0%nat) (nth j m 0%nat) *
                                    cell dsol (nth j m 0%nat))))))%R).
  { intro a. unfold n. rewrite (sum_split _ _ m v P). f_equal; apply sum_ext; intros j Hj.
    - rewrite Dm; auto. now apply nth_In.
    - rewrite Dv, Av; auto. now apply nth_In. }
  rewrite S.
  assert (Hin : In i (m ++ v)).
  { apply (Permutation_in _ (Permutation_sym P)). apply in_seq. unfold n in Hi. lia. }
  apply in_app_iff in Hin as [Hin|Hin].
  - apply (In_nth m i 0) in Hin as [a [Ha <-]]. rewrite <- (CU a Ha). reflexivity.
  - apply (In_nth v i 0) in Hin as [a [Ha <-]]. rewrite <- (CF a Ha). reflexivity.
Qed.

(** What the assembly adds to the system (condensed quantities put back in element-sized arrays):
    an increment solving it solves the condensed system, with zero increment at the void dofs. *)
Theorem C44_embedded_system : forall n rs uu ru, NoDup rs -> (forall k, In k rs -> k < n) ->
  rows uu = length rs -> cols uu = length rs -> len ru = length rs ->
  exists K f, embed n rs uu ru = Ok (K, f) /\ rows K = n /\ cols K = n /\ len f = n /\
    forall dx : nat -> R,
      (forall i, i < n -> sum n (fun k => ent K i k * dx k)%R = (- cell f i)%R) <->
      ((forall i, i < length rs -> sum (length rs) (fun j => ent uu i j * dx (nth j rs 0%nat))%R
                                   = (- cell ru i)%R) /\
       (forall k, k < n -> ~ In k rs -> dx k = 0%R)).
Proof.
  intros n rs uu ru Nd Hb Hr Hc Hl. unfold embed.
  assert (Ij : forall i j, i < length rs -> j < length rs -> nth i rs 0 = nth j rs 0 -> i = j)
    by (intros i j Hi Hj; apply (proj1 (NoDup_nth rs 0) Nd i j Hi Hj)).
  destruct (scatter_vec (length rs) (fun i => nth i rs 0) (cell ru) (fun i => get ru i)
              (fill n 0%R)) as [f [Ef [Lf [Af Bf]]]]; auto.
  { intros i Hi. split; [apply get_ok; lia|]. apply Hb, nth_In; auto. }
  rewrite Ef. cbn [bind].
  destruct (scatter_mat (length rs) (length rs) (fun i => nth i rs 0) (fun i => nth i rs 0)
     (ent uu) (fun i j => mget uu i j)
     (mkMat n n (fun i j => if i =? j then (/ 1000000)%R else 0%R)))
    as [K [EK [RK [CK [AK BK]]]]]; auto.
  { intros i j Hi Hj. apply mget_ok; lia. }
  { intros i Hi. apply Hb, nth_In; auto. } { intros i Hi. apply Hb, nth_In; auto. }
  rewrite EK. cbn [bind]. exists K, f. split; auto. split; auto. split; auto. split; auto.
  (* complement of rs *)
  set (cs := filter (fun k => negb (existsb (Nat.eqb k) rs)) (seq 0 n)).
  assert (Ic : forall k, In k cs <-> k < n /\ ~ In k rs).
  { intro k. unfold cs. rewrite filter_In, in_seq, negb_true_iff. split.
    - intros [A B]. split; [lia|]. intro I.
      assert (existsb (Nat.eqb k) rs = true); [|congruence].
      apply existsb_exists. exists k. split; auto. apply Nat.eqb_refl.
    - intros [A B]. split; [lia|]. destruct (existsb (Nat.eqb k) rs) eqn:E; auto.
      apply existsb_exists in E as [x [Hx Ex]]. apply Nat.eqb_eq in Ex. subst. contradiction. }
  assert (P : Permutation (rs ++ cs) (seq 0 n)).
  { apply NoDup_Permutation; [|apply seq_NoDup|].
    - apply nodup_app; auto; [apply NoDup_filter, seq_NoDup|].
      intros k H1 H2; apply Ic in H2; tauto.
    - intro k. rewrite in_app_iff, Ic, in_seq. split; [intros [H|H]; [specialize (Hb k H)|]; lia|].
      intro H. destruct (in_dec Nat.eq_dec k rs); [left|right]; auto. split; [lia|auto]. }
  intro dx.
  assert (RowU : forall i, i < length rs -> sum n (fun k => ent K (nth i rs 0%nat) k * dx k)%R =
     sum (length rs) (fun j => ent uu i j * dx (nth j rs 0%nat))%R).
  { intros i Hi. rewrite (sum_split n _ rs cs P).
    rewrite (sum_0 (length cs)).
    - rewrite Rplus_0_r. apply sum_ext. intros j Hj. now rewrite AK.
    - intros j Hj. rewrite BK.
      + cbn [ent]. replace (nth i rs 0 =? nth j cs 0) with false; [ring|].
        symmetry. apply Nat.eqb_neq. intro Eq.
        assert (In (nth j cs 0) cs) by (apply nth_In; auto).
        apply Ic in H. apply H. rewrite <- Eq. now apply nth_In.
      + right. intros l Hll Eq. assert (In (nth j cs 0) cs) by (apply nth_In; auto).
        apply Ic in H. apply H. rewrite Eq. now apply nth_In. }
  assert (RowC : forall i, i < n -> ~ In i rs -> sum n (fun k => ent K i k * dx k)%R =
     (/ 1000000 * dx i)%R).
  { intros i Hi Ni. rewrite (sum_single n i) by
      (auto; intros k Hk Hne; rewrite BK by (left; intros l Hll Eq; apply Ni; rewrite Eq; now apply nth_In);
       cbn [ent]; replace (i =? k) with false by (symmetry; apply Nat.eqb_neq; congruence); ring).
    rewrite BK by (left; intros l Hll Eq; apply Ni; rewrite Eq; now apply nth_In).
    cbn [ent]. now rewrite Nat.eqb_refl. }
  split.
  - intro H. split.
    + intros i Hi. rewrite <- RowU by auto. rewrite H by (apply Hb, nth_In; auto).
      now rewrite Af.
    + intros k Hk Nk. specialize (H k Hk). rewrite RowC in H by auto.
      rewrite Bf in H by (intros i Hi Eq; apply Nk; rewrite Eq; now apply nth_In).
      simpl in H. lra.
  - intros [H1 H2] i Hi. destruct (in_dec Nat.eq_dec i rs) as [Hin|Hin].
    + apply (In_nth rs i 0) in Hin as [a [Ha <-]]. rewrite RowU, H1, Af by auto. reflexivity.
    + rewrite RowC, H2 by auto.
      rewrite Bf by (intros a Ha Eq; apply Hin; rewrite Eq; now apply nth_In).
      simpl. ring.
Qed.

(** The recovered void dofs are what a later read of the element solution returns; material dofs
    come from the caller's vector. *)
Theorem C44_store_round_trip : forall lu st id e res jac sol dsol st' w,
  update_factored lu st id e res jac sol dsol = Ok (st', w) ->
  forall m v x, partition_local e [] [] = Ok (m, v) -> len x = e_vars e * e_nodes e ->
  len w = e_vars e * e_nodes e ->
  exists y, factored_solution st' id e x = Ok y /\ len y = len x /\
    (forall k, In k v -> cell y k = cell w k) /\ (forall k, In k m -> cell y k = cell x k) /\
    (forall id', id' <> id -> st' id' = st id').
Proof.
  intros lu st id e res jac sol dsol st' w H m v x Hp Lx Lw. unfold update_factored in H.
  destruct (st id); [|discriminate]. destruct (recover lu e res jac sol dsol) as [w'|]; [|discriminate].
  cbn [bind] in H. injection H as <- <-. unfold factored_solution. rewrite upd_same, Hp.
  cbn [bind fst snd]. destruct (partition_perm e m v Hp) as [P [Nm [Nv [Im Iv]]]].
  destruct (scatter_vec (length v) (fun i => nth i v 0) (fun i => cell w' (nth i v 0))
     (fun i => get w' (nth i v 0)) x) as [y [E [L [A B]]]].
  { intros i Hi. assert (In (nth i v 0) v) by (apply nth_In; auto). apply Iv in H.
    split; [apply get_ok; lia|lia]. }
  { intros i j Hi Hj. apply (proj1 (NoDup_nth v 0) Nv i j Hi Hj). }
  exists y. split; [exact E|]. split; auto. split; [|split].
  - intros k Hk. apply (In_nth v k 0) in Hk as [i [Hi <-]]. auto.
  - intros k Hk. apply B. intros i Hi Eq. assert (In (nth i v 0) v) by (apply nth_In; auto).
    rewrite <- Eq in H. apply Iv in H. apply Im in Hk. lra.
  - intros id' Hid. now apply upd_other.
Qed.

(** ** A concrete element: one variable, QUAD4 with one void node, unit-diagonal Jacobian *)
Definition demo_elem : elem := mkElem 1 true true 4 (fun i => if i =? 2 then (-1)%R else 1%R).
Definition demo_jac : mat R :=
  mkMat 4 4 (fun i j => if i =? j then 2%R else if (i + 1 =? j) || (j + 1 =? i) then 1%R else 0%R).
Lemma demo_partition : partition_local demo_elem [] [] = Ok ([0; 1; 3], [2]).
Proof.
  unfold partition_local. cbn [e_quad4 e_lagrange demo_elem assert_]. cbv zeta.
  rewrite push_all. unfold neg, demo_elem. cbn [e_phi e_nodes e_vars seq filter Nat.eqb].
  rewrite (proj2 (rltb_true (-1) 0)) by lra. rewrite !(proj2 (rltb_false 1 0)) by lra.
  reflexivity.
Qed.
(** A solver for 1x1 systems meets the contract here. *)
Definition lu1 : lu_solver := fun a b k => (b k / ent a k k)%R.
Example C43_nonvacuous : e_quad4 demo_elem = true /\ e_lagrange demo_elem = true /\
  partition_local demo_elem [] [] = Ok ([0; 1; 3], [2]).
Proof. split; [reflexivity|]. split; [reflexivity|]. apply demo_partition. Qed.
Example C44_nonvacuous : partition_local demo_elem [] [] = Ok ([0; 1; 3], [2]) /\
  0 < length [0; 1; 3] /\ 0 < length [2] /\ rows demo_jac = 4 /\ cols demo_jac = 4 /\
  void_invertible [2] demo_jac /\ lu_solves lu1 [2] demo_jac /\
  ent demo_jac 1 2 <> 0%R.
Proof.
  split; [apply demo_partition|]. split; [simpl; lia|]. split; [simpl; lia|].
  split; auto. split; auto. split; [|split; [|simpl; lra]].
  2: { intros _ a b Ra Ca Ha i Hi. simpl in Hi. assert (i = 0) by lia. subst i.
       simpl. unfold lu1. rewrite (Ha 0 0) by (simpl; lia). simpl. field. }
  exists (fun _ _ => / 2)%R. intros i j Hi Hj. simpl in Hi, Hj.
  assert (i = 0) by lia. assert (j = 0) by lia. subst. simpl. lra.
Qed.

(** ** C45 *)

(** The number of sign changes counted around any closed sequence of nodes is twice the number of
    separate runs of material, hence even. *)
Theorem C45_sign_changes : forall phi ns, ns <> [] ->
  exists k, run_count (length ns) (fun i => phi (nth i ns 0)) k /\ sign_changes phi ns = 2 * k.
Proof.
  intros phi ns H. assert (Hn : 0 < length ns) by (destruct ns; [congruence|simpl; lia]).
  rewrite sign_changes_count by auto.
  exists (length (runs (length ns) (fun i => phi (nth i ns 0)))). split.
  - destruct (runs_spec (length ns) (fun i => phi (nth i ns 0)) Hn) as [A B].
    exists (runs (length ns) (fun i => phi (nth i ns 0))). auto.
  - now apply count_changes.
Qed.

Lemma angle_map_ok : forall at2 el pos c es m, (forall e, In e es -> p_quad (el e) = true) ->
  exists m', angle_map at2 el pos c es m = Ok m'.
Proof.
  intros at2 el pos c es; induction es as [|e t IH]; intros m H; cbn [angle_map]; [eauto|].
  rewrite H by now left. cbn [assert_]. apply IH. intros; apply H; now right.
Qed.

Lemma fill_patch_ok : forall m, length m = 4 -> exists p, fill_patch m = Ok p /\ len p = 4 /\
  forall k, k < 4 -> cell p k = Some (snd (nth k m (0%R, 0))).
Proof.
  intros m H. unfold fill_patch. rewrite H.
  destruct m as [|a [|b [|c [|d [|? ?]]]]]; simpl in H; try discriminate.
  cbn [loop bind]. unfold set, fill. cbn [len Nat.ltb Nat.leb cell bind nth snd].
  eexists; split; [reflexivity|]. cbn [len cell]. split; auto. intros k Hk.
  unfold upd. destruct k as [|[|[|[|k]]]]; try lia; reflexivity.
Qed.

Lemma sqdist_nonneg : forall p q, (0 <= sqdist p q)%R.
Proof. intros [[a b] c] [[x y] z]. unfold sqdist. pose proof (pow2_ge_0 (a - x)). pose proof (pow2_ge_0 (b - y)). pose proof (pow2_ge_0 (c - z)). lra. Qed.
Lemma dist_to_sq : forall pos c n, dist_to pos c n = sqrt (sqdist (pos n) (pos c)).
Proof. intros. unfold dist_to, sqdist. destruct (pos n) as [[a b] d], (pos c) as [[x y] z]. f_equal. ring. Qed.
Lemma closer_nearer : forall pos c a b, nearer_node pos c a b (closer pos c a b).
Proof.
  intros. unfold closer, nearer_node. rewrite !dist_to_sq.
  destruct (rltb (sqrt (sqdist (pos a) (pos c))) (sqrt (sqdist (pos b) (pos c)))) eqn:E.
  - apply rltb_true in E. split; [auto|]. split; [lra|]. left. apply sqrt_lt_0_alt. exact E.
  - apply rltb_false in E. split; [auto|]. split; [|lra].
    apply sqrt_le_0 in E; auto using sqdist_nonneg.
Qed.
Lemma ainsert_spec : forall a e m, StronglySorted (fun x y => (fst x < fst y)%R) m ->
  (forall x, In x m -> fst x <> a) ->
  StronglySorted (fun x y => (fst x < fst y)%R) (ainsert a e m) /\ Permutation (ainsert a e m) ((a, e) :: m).
Proof.
  intros a e m; induction m as [|[b f] t IH]; intros S H; cbn [ainsert].
  - split; auto. constructor; [constructor|constructor].
  - inversion S as [|? ? S1 S2]; subst. rewrite Forall_forall in S2. cbn [fst] in *.
    destruct (rltb a b) eqn:E1.
    + apply rltb_true in E1. split; auto. constructor; auto. rewrite Forall_forall. intros x [<-|Hx]; cbn [fst]; [lra|].
      specialize (S2 x Hx). cbn [fst] in S2. lra.
    + apply rltb_false in E1. destruct (rltb b a) eqn:E2.
      * apply rltb_true in E2. destruct IH as (I1 & I2); auto. { intros; apply H; now right. }
        split.
        -- constructor; auto. rewrite Forall_forall. intros x Hx. apply (Permutation_in _ I2) in Hx.
           destruct Hx as [<-|Hx]; cbn [fst]; [lra|]. apply (S2 x Hx).
        -- rewrite I2. apply perm_swap.
      * apply rltb_false in E2. exfalso. apply (H (b, f)); [now left|]. cbn [fst]. lra.
Qed.
Lemma angle_map_spec : forall at2 el pos c dir,
  (forall e, at2 (snd (p_cent (el e)) - snd (fst (pos c)))%R (fst (p_cent (el e)) - fst (fst (pos c)))%R = dir e) ->
  forall es m m', angle_map at2 el pos c es m = Ok m' ->
  StronglySorted (fun x y => (fst x < fst y)%R) m -> (forall x e, In x m -> In e es -> fst x <> dir e) ->
  (forall e f, In e es -> In f es -> dir e = dir f -> e = f) -> NoDup es ->
  StronglySorted (fun x y => (fst x < fst y)%R) m' /\ Permutation m' (map (fun e => (dir e, e)) es ++ m).
Proof.
  intros at2 el pos c dir Hd es; induction es as [|e t IH]; intros m m' H S X I N; cbn [angle_map] in H.
  - injection H as <-. auto.
  - destruct (p_quad (el e)); [|discriminate]. cbn [assert_] in H. rewrite Hd in H.
    destruct (ainsert_spec (dir e) e m S) as (A1 & A2). { intros x Hx. apply X; [auto|now left]. }
    inversion N as [|? ? N1 N2]; subst.
    destruct (IH _ _ H A1) as (B1 & B2); auto.
    + intros x f Hx Hf. apply (Permutation_in _ A2) in Hx. destruct Hx as [<-|Hx].
      * cbn [fst]. intros K. apply N1. apply I in K; [now subst|now left|now right].
      * apply X; [auto|now right].
    + intros; apply I; auto; now right.
    + split; auto. rewrite B2, A2. cbn [map app]. symmetry. apply Permutation_middle.
Qed.
Lemma sorted_perm_eq : forall l l' : list (R * nat), StronglySorted (fun x y => (fst x < fst y)%R) l ->
  StronglySorted (fun x y => (fst x < fst y)%R) l' -> Permutation l l' -> l = l'.
Proof.
  induction l as [|a l IH]; intros l' S S' P.
  - apply Permutation_nil in P. now subst.
  - destruct l' as [|b l']; [apply Permutation_sym, Permutation_nil in P; discriminate|].
    inversion S as [|? ? S1 S2]; subst. inversion S' as [|? ? S3 S4]; subst. rewrite Forall_forall in S2, S4.
    assert (a = b) as ->.
    { pose proof (Permutation_in a P (or_introl eq_refl)) as [Ha|Ha]; auto.
      pose proof (Permutation_in b (Permutation_sym P) (or_introl eq_refl)) as [Hb|Hb]; auto.
      specialize (S2 b Hb). specialize (S4 a Ha). lra. }
    f_equal. apply IH; auto. now apply Permutation_cons_inv in P.
Qed.

(** For a patch whose neighbours sort into exactly four distinct angles the function returns, and
    answers true exactly when the periphery has at least two separate runs of material.  Missing:
    more than four neighbours, or equal angles. *)
Theorem C45_material_levels_partial : forall at2 el pos phi c nbrs m,
  4 <= length nbrs -> angle_map at2 el pos c nbrs [] = Ok m -> length m = 4 ->
  exists ns b k, material_levels at2 el pos phi c nbrs = Ok b /\ length ns = 8 /\
    (forall p, fill_patch m = Ok p -> periphery el pos c p = Ok ns) /\
    run_count 8 (fun i => phi (nth i ns 0)) k /\ (b = true <-> 2 <= k).
Proof.
  intros at2 el pos phi c nbrs m Hl Ha Hm.
  unfold material_levels. replace (length nbrs <? 4) with false by (symmetry; apply Nat.ltb_ge; lia).
  rewrite Ha. cbn [bind]. destruct (fill_patch_ok m Hm) as [p [Ep [Lp Cp]]]. rewrite Ep. cbn [bind].
  assert (Pn : forall k j, k < 4 -> pnode el p k j = Ok (p_node (el (snd (nth k m (0%R, 0)))) j)).
  { intros k j Hk. unfold pnode. rewrite get_ok by lia. cbn [bind]. now rewrite Cp. }
  assert (Pe : exists ns, periphery el pos c p = Ok ns /\ length ns = 8).
  { unfold periphery. repeat (rewrite Pn by lia; cbn [bind]). eexists; split; reflexivity. }
  destruct Pe as [ns [Epe Lns]]. rewrite Epe. cbn [bind]. rewrite Lns. cbn [Nat.eqb assert_].
  destruct (C45_sign_changes phi ns) as [k [Rk Ek]]; [intro K; subst; discriminate|].
  rewrite Lns in Rk. rewrite Ek.
  replace ((2 * k) mod 2 =? 0) with true
    by (symmetry; apply Nat.eqb_eq; rewrite Nat.mul_comm; apply Nat.mod_mul; lia).
  cbn [assert_]. replace (2 * k / 2) with k by (rewrite Nat.mul_comm, Nat.div_mul; lia).
  exists ns, (1 <? k), k. split; auto. split; auto. split.
  - intros q Hq. injection Hq as <-. exact Epe.
  - split; auto. rewrite Nat.ltb_lt. lia.
Qed.

(** The same in terms of the mesh: for four quadrilaterals around a node, listed in any order, E0..E3 being
    their order by direction, the answer is true exactly when the closed loop of the outer nodes (outer
    corner 0 of E0, the node between E0 and E1, outer corner 1 of E1, ...; on a side shared by elements of
    different levels the nearer of the two nodes) has at least two separate runs of material. *)
Theorem C45_patch_partial : forall at2 el pos phi c nbrs E0 E1 E2 E3,
  (forall e, In e nbrs -> p_quad (el e) = true) -> Permutation nbrs [E0; E1; E2; E3] ->
  (let dir := fun e => direction at2 (p_cent (el e)) (pos c) in dir E0 < dir E1 < dir E2 /\ dir E2 < dir E3)%R ->
  exists s0 s1 s2 s3 b k, material_levels at2 el pos phi c nbrs = Ok b /\
    nearer_node pos c (p_node (el E0) 1) (p_node (el E1) 0) s0 /\
    nearer_node pos c (p_node (el E1) 2) (p_node (el E2) 1) s1 /\
    nearer_node pos c (p_node (el E2) 3) (p_node (el E3) 2) s2 /\
    nearer_node pos c (p_node (el E3) 0) (p_node (el E0) 3) s3 /\
    run_count 8 (fun i => phi (nth i [p_node (el E0) 0; s0; p_node (el E1) 1; s1;
                                      p_node (el E2) 2; s2; p_node (el E3) 3; s3] 0)) k /\
    (b = true <-> 2 <= k).
Proof.
  intros at2 el pos phi c nbrs E0 E1 E2 E3 Q P (D1 & D2).
  pose (dir := fun e => direction at2 (p_cent (el e)) (pos c)).
  change (dir E0 < dir E1 < dir E2)%R in D1. change (dir E2 < dir E3)%R in D2.
  assert (Hd : forall e, at2 (snd (p_cent (el e)) - snd (fst (pos c)))%R (fst (p_cent (el e)) - fst (fst (pos c)))%R = dir e).
  { intros e. unfold dir, direction. destruct (p_cent (el e)), (pos c) as [[? ?] ?]. reflexivity. }
  assert (M : angle_map at2 el pos c nbrs [] = Ok [(dir E0, E0); (dir E1, E1); (dir E2, E2); (dir E3, E3)]).
  { destruct (angle_map_ok at2 el pos c nbrs [] Q) as [m Em]. rewrite Em. f_equal.
    assert (Inj : forall e f, In e nbrs -> In f nbrs -> dir e = dir f -> e = f).
    { intros e f He Hf. apply (Permutation_in _ P) in He. apply (Permutation_in _ P) in Hf.
      simpl in He, Hf. intros. repeat (match goal with H : _ \/ _ |- _ => destruct H | H : False |- _ => destruct H end);
        subst; auto; exfalso; cbv beta zeta in *; lra. }
    assert (ND : NoDup nbrs).
    { apply (Permutation_NoDup (Permutation_sym P)).
      repeat constructor; simpl; intros K; repeat (destruct K as [K|K]; [subst; lra|]); auto. }
    destruct (angle_map_spec at2 el pos c dir Hd nbrs [] m Em) as (Ss & Pm); auto.
    { constructor. }
    apply sorted_perm_eq; auto.
    - cbn [map fst]. repeat constructor; cbn [fst]; lra.
    - rewrite app_nil_r in Pm. rewrite Pm. change ([(dir E0, E0); (dir E1, E1); (dir E2, E2); (dir E3, E3)]) with (map (fun e => (dir e, e)) [E0; E1; E2; E3]).
      now apply Permutation_map. }
  assert (Ln : 4 <= length nbrs) by (rewrite (Permutation_length P); simpl; lia).
  destruct (C45_material_levels_partial at2 el pos phi c nbrs _ Ln M eq_refl) as (ns & b & k & A & L & Pe & Rk & B).
  destruct (fill_patch_ok [(dir E0, E0); (dir E1, E1); (dir E2, E2); (dir E3, E3)] eq_refl) as [p [Ep [Lp Cp]]].
  specialize (Pe p Ep). unfold periphery, pnode in Pe. rewrite !get_ok in Pe by lia.
  cbn [bind] in Pe. rewrite !Cp in Pe by lia. cbn [bind nth snd] in Pe. injection Pe as <-.
  exists (closer pos c (p_node (el E0) 1) (p_node (el E1) 0)), (closer pos c (p_node (el E1) 2) (p_node (el E2) 1)),
    (closer pos c (p_node (el E2) 3) (p_node (el E3) 2)), (closer pos c (p_node (el E3) 0) (p_node (el E0) 3)), b, k.
  split; [exact A|]. repeat (split; [apply closer_nearer|]). split; [exact Rk|exact B].
Qed.

(** Fewer than four neighbours: always false, no access at all. *)
Theorem C45_boundary_node : forall at2 el pos phi c nbrs, length nbrs < 4 ->
  material_levels at2 el pos phi c nbrs = Ok false.
Proof.
  intros. unfold material_levels. now rewrite (proj2 (Nat.ltb_lt _ _) H).
Qed.

(** False of the code: with more than four neighbours at distinct angles the four-entry array is
    written past its end... *)
Theorem C45_five_neighbours_refuted : forall at2 el pos phi c nbrs m,
  4 <= length nbrs -> angle_map at2 el pos c nbrs [] = Ok m -> 4 < length m ->
  material_levels at2 el pos phi c nbrs = Fault OutOfBounds.
Proof.
  intros at2 el pos phi c nbrs m Hl Ha Hm. unfold material_levels.
  replace (length nbrs <? 4) with false by (symmetry; apply Nat.ltb_ge; lia).
  rewrite Ha. cbn [bind].
  enough (fill_patch m = Fault OutOfBounds) by (rewrite H; reflexivity).
  unfold fill_patch.
  assert (G4 : exists p, loop 4 (fun i p => set p i (Some (snd (nth i m (0%R, 0))))) (fill 4 None)
               = Ok p /\ len p = 4).
  { cbn [loop bind]. unfold set, fill. cbn [len Nat.ltb Nat.leb cell bind].
    eexists; split; reflexivity. }
  destruct G4 as [p [E4 L4]].
  assert (G : forall k, loop (5 + k) (fun i p => set p i (Some (snd (nth i m (0%R, 0)))))
                          (fill 4 None) = Fault OutOfBounds).
  { induction k as [|k IH].
    - change (5 + 0) with (S 4). cbn [loop] in *. rewrite E4. cbn [bind]. unfold set.
      rewrite L4. reflexivity.
    - replace (5 + S k) with (S (5 + k)) by lia. 
      change (loop (S (5 + k)) ?b ?s) with (s' <- loop (5 + k) b s ;; b (5 + k) s').
      rewrite IH. reflexivity. }
  replace (length m) with (5 + (length m - 5)) by lia. apply G.
Qed.

(** ... and four neighbours of which two centroids lie in the same direction leave an empty entry
    that is dereferenced. *)
Theorem C45_equal_angles_refuted : forall at2 el pos phi c nbrs m,
  4 <= length nbrs -> angle_map at2 el pos c nbrs [] = Ok m -> length m < 4 ->
  material_levels at2 el pos phi c nbrs = Fault NullDeref.
Proof.
  intros at2 el pos phi c nbrs m Hl Ha Hm. unfold material_levels.
  replace (length nbrs <? 4) with false by (symmetry; apply Nat.ltb_ge; lia).
  rewrite Ha. cbn [bind].
  assert (F : exists p, fill_patch m = Ok p /\ len p = 4 /\ cell p 3 = None /\
     forall k, k < length m -> cell p k <> None).
  { unfold fill_patch. destruct m as [|a [|b [|d [|? ?]]]]; simpl in Hm; try lia;
      cbn [length loop bind]; unfold set, fill; cbn [len Nat.ltb Nat.leb cell bind nth snd];
      (eexists; split; [reflexivity|]); cbn [len cell]; (split; [reflexivity|]);
      (split; [reflexivity|]); intros k Hk; unfold upd;
      destruct k as [|[|[|k]]]; try lia; discriminate. }
  destruct F as [p [Ep [Lp [C3 Cl]]]]. rewrite Ep. cbn [bind].
  enough (periphery el pos c p = Fault NullDeref) by (rewrite H; reflexivity).
  unfold periphery, pnode. rewrite !get_ok by lia. cbn [bind].
  destruct (cell p 0); [|reflexivity]. cbn [bind]. destruct (cell p 1); [|reflexivity]. cbn [bind].
  destruct (cell p 2); [|reflexivity]. cbn [bind]. rewrite C3. reflexivity.
Qed.

(** ** C69: what init marks for condensation can be condensed *)

Lemma patch_init_ok : forall at2 el pos phi c nbrs l, patch_init at2 el pos phi c nbrs = Ok l ->
  forall e, In e l -> In e nbrs /\ exists i, i < p_nn (el e) /\ (0 <= phi (p_node (el e) i))%R.
Proof.
  intros at2 el pos phi c nbrs l H e He. unfold patch_init in H.
  destruct (rleb (phi c) 0); [|discriminate]. cbn [assert_] in H.
  destruct (material_levels at2 el pos phi c nbrs) as [b|]; [|discriminate].
  cbn [bind] in H. injection H as <-. destruct b; [|contradiction].
  apply filter_In in He as [He K]. split; auto. apply existsb_exists in K as [i [Hi Ki]].
  apply in_seq in Hi. exists i. split; [lia|]. now apply rleb_true in Ki.
Qed.

(** C69.  Every element that init marks for condensation has at least one node in void and at least
    one in material, provided the neighbours returned for a node are elements having that node. *)
Theorem C69_marked_elements_are_cut : forall at2 el pos phi nbr boundary corners es l,
  (forall e c x, In x (nbr e c) -> exists i, i < p_nn (el x) /\ p_node (el x) i = c) ->
  to_factor at2 el pos phi nbr boundary corners es = Ok l ->
  forall x, In x l ->
    (exists i, i < p_nn (el x) /\ (phi (p_node (el x) i) < 0)%R) /\
    (exists i, i < p_nn (el x) /\ (0 <= phi (p_node (el x) i))%R).
Proof.
  intros at2 el pos phi nbr boundary corners es l Hn.
  assert (PA : forall e cs l, (forall c, In c cs -> (phi c < 0)%R) ->
    patch_all at2 el pos phi nbr e cs = Ok l -> forall x, In x l ->
    (exists i, i < p_nn (el x) /\ (phi (p_node (el x) i) < 0)%R) /\
    (exists i, i < p_nn (el x) /\ (0 <= phi (p_node (el x) i))%R)).
  { intros e cs; induction cs as [|c t IH]; intros l0 Hc H x Hx; cbn [patch_all] in H.
    - injection H as <-. contradiction.
    - destruct (patch_init at2 el pos phi c (nbr e c)) as [a|] eqn:Ea; [|discriminate].
      cbn [bind] in H. destruct (patch_all at2 el pos phi nbr e t) as [b|] eqn:Eb; [|discriminate].
      cbn [bind] in H. injection H as <-. apply in_app_iff in Hx as [Hx|Hx].
      + destruct (patch_init_ok _ _ _ _ _ _ _ Ea x Hx) as [Hin Hm]. split; auto.
        destruct (Hn e c x Hin) as [i [Hi Ei]]. exists i. split; auto. rewrite Ei.
        apply Hc. now left.
      + apply (IH b); auto. intros; apply Hc; now right. }
  revert l. induction es as [|e t IH]; intros l H x Hx; cbn [to_factor] in H.
  - injection H as <-. contradiction.
  - destruct (if boundary e then _ else _) as [a|] eqn:Ea; [|discriminate]. cbn [bind] in H.
    destruct (to_factor at2 el pos phi nbr boundary corners t) as [b|] eqn:Eb; [|discriminate].
    cbn [bind] in H. injection H as <-. apply in_app_iff in Hx as [Hx|Hx].
    + destruct (boundary e); [|injection Ea as <-; contradiction].
      refine (PA e _ a _ Ea x Hx). intros c Hc. apply filter_In in Hc as [_ Hc].
      now apply rltb_true in Hc.
    + eapply IH; eauto.
Qed.

(** Hence the recovery's assertions on both dof lists cannot fail for a marked element. *)
Theorem C69_recovery_assertions_hold : forall e m v, 0 < e_vars e ->
  (exists i, i < e_nodes e /\ (e_phi e i < 0)%R) -> (exists i, i < e_nodes e /\ (0 <= e_phi e i)%R) ->
  partition_local e [] [] = Ok (m, v) -> 0 < length m /\ 0 < length v.
Proof.
  intros e m v Hv [i [Hi Ni]] [j [Hj Pj]] H.
  destruct (partition_perm e m v H) as [_ [_ [_ [Im Iv]]]].
  assert (In j m).
  { apply Im. split; [nia|]. now rewrite Nat.mod_small. }
  assert (In i v).
  { apply Iv. split; [nia|]. now rewrite Nat.mod_small. }
  split; [destruct m|destruct v]; simpl in *; try contradiction; lia.
Qed.

(** ** A concrete patch: 3x3 nodes of a unit grid, numbered row by row, centre 4 *)
Definition grid_pos (n : nat) : R * R * R := (INR (n mod 3), INR (n / 3), 0%R).
Definition grid_el (e : nat) : pelem :=
  let x := e mod 2 in let y := e / 2 in let b := 3 * y + x in
  mkPElem true 4 (fun i => match i with 0 => b | 1 => b + 1 | 2 => b + 4 | _ => b + 3 end)
    (INR x + / 2, INR y + / 2)%R.
(** a monotone stand-in for the angle on the four quadrants: -3, -1, 1, 3 *)
Definition quad_angle (y x : R) : R :=
  if rltb y 0 then (if rltb x 0 then -3 else -1)%R else (if rltb x 0 then 3 else 1)%R.
Lemma grid_angles : angle_map quad_angle grid_el grid_pos 4 [0; 1; 2; 3] [] =
  Ok [((-3)%R, 0); ((-1)%R, 1); (1%R, 3); (3%R, 2)].
Proof.
  cbn [angle_map grid_el p_quad assert_]. unfold quad_angle, grid_el, grid_pos. cbn [p_cent fst snd].
  change (4 mod 3) with 1. change (4 / 3) with 1. change (0 mod 2) with 0. change (1 mod 2) with 1.
  change (2 mod 2) with 0. change (3 mod 2) with 1. change (0 / 2) with 0. change (1 / 2) with 0.
  change (2 / 2) with 1. change (3 / 2) with 1. simpl INR.
  repeat match goal with |- context [rltb ?a 0] =>
    first [rewrite (proj2 (rltb_true a 0)) by lra | rewrite (proj2 (rltb_false a 0)) by lra] end.
  cbn [ainsert].
  repeat (match goal with |- context [rltb ?a ?b] =>
    first [rewrite (proj2 (rltb_true a b)) by lra | rewrite (proj2 (rltb_false a b)) by lra] end;
    cbn [ainsert]). reflexivity.
Qed.
(** Corner nodes are material, the others void: four runs. *)
Definition cross_phi (n : nat) : R :=
  match n with 0 | 2 | 6 | 8 => 1 | _ => -1 end%R.
Example C45_patch_nonvacuous :
  (forall e, In e [0; 1; 2; 3] -> p_quad (grid_el e) = true) /\ Permutation [0; 1; 2; 3] [0; 1; 3; 2] /\
  (let dir := fun e => direction quad_angle (p_cent (grid_el e)) (grid_pos 4) in
   dir 0%nat < dir 1%nat < dir 3%nat /\ dir 3%nat < dir 2%nat)%R.
Proof.
  split; [reflexivity|]. split; [constructor; constructor; constructor|].
  unfold direction, quad_angle, grid_el, grid_pos. cbn [p_cent fst snd].
  change (0 mod 2) with 0. change (1 mod 2) with 1. change (3 mod 2) with 1.
  change (2 mod 2) with 0. change (0 / 2) with 0. change (1 / 2) with 0.
  change (3 / 2) with 1. change (2 / 2) with 1. change (4 mod 3) with 1. change (4 / 3) with 1. simpl INR.
  repeat match goal with |- context [rltb ?a 0] =>
    first [rewrite (proj2 (rltb_true a 0)) by lra | rewrite (proj2 (rltb_false a 0)) by lra] end.
  lra.
Qed.
Example C45_nonvacuous :
  material_levels quad_angle grid_el grid_pos cross_phi 4 [0; 1; 2; 3] = Ok true /\
  length [((-3)%R, 0); ((-1)%R, 1); (1%R, 3); (3%R, 2)] = 4.
Proof.
  split; [|reflexivity].
  destruct (C45_material_levels_partial quad_angle grid_el grid_pos cross_phi 4 [0; 1; 2; 3] _
    (le_n 4) grid_angles eq_refl) as [ns [b [k [E [L [P [Rk B]]]]]]].
  rewrite E. f_equal. apply B.
  assert (Ens : ns = [0; 1; 2; 5; 8; 7; 6; 3]).
  { destruct (fill_patch_ok [((-3)%R, 0); ((-1)%R, 1); (1%R, 3); (3%R, 2)] eq_refl) as [p [Ep [Lp Cp]]].
    specialize (P p Ep). unfold periphery, pnode in P. rewrite !get_ok in P by lia.
    cbn [bind] in P. rewrite !Cp in P by lia. cbn [bind nth snd] in P.
    unfold grid_el in P. cbn [p_node] in P.
    change (0 mod 2) with 0 in P. change (1 mod 2) with 1 in P. change (3 mod 2) with 1 in P.
    change (2 mod 2) with 0 in P. change (0 / 2) with 0 in P. change (1 / 2) with 0 in P.
    change (3 / 2) with 1 in P. change (2 / 2) with 1 in P. cbn [Nat.mul Nat.add] in P.
    unfold closer in P.
    repeat match type of P with context [rltb ?a ?a] =>
      replace (rltb a a) with false in P by (symmetry; apply rltb_false; lra) end.
    injection P as <-. reflexivity. }
  subst ns.
  destruct (C45_sign_changes cross_phi [0; 1; 2; 5; 8; 7; 6; 3]) as [k' [[L2 [N2 [Len2 I2]]] Ek]];
    [discriminate|].
  assert (S : sign_changes cross_phi [0; 1; 2; 5; 8; 7; 6; 3] = 8).
  { unfold sign_changes. cbn [length seq fold_left fst snd].
    change ((0 + 1) mod 8) with 1. change ((1 + 1) mod 8) with 2. change ((2 + 1) mod 8) with 3.
    change ((3 + 1) mod 8) with 4. change ((4 + 1) mod 8) with 5. change ((5 + 1) mod 8) with 6.
    change ((6 + 1) mod 8) with 7. change ((7 + 1) mod 8) with 0. cbn [nth cross_phi].
    rewrite !(proj2 (rltb_true (-1) 0)), !(proj2 (rltb_false 1 0)), !(proj2 (rleb_true 0 1)),
      !(proj2 (rleb_false 0 (-1))) by lra. reflexivity. }
  destruct Rk as [L1 [N1 [Len1 I1]]].
  assert (k = k').
  { rewrite <- Len1, <- Len2. apply Permutation_length, NoDup_Permutation; auto.
    intros [s l]. rewrite I1. change 8 with (length [0; 1; 2; 5; 8; 7; 6; 3]). now rewrite I2. }
  lia.
Qed.

Print Assumptions C43_partition_exact.
Print Assumptions C43_global_partition.
Print Assumptions C43_reused_lists_refuted.
Print Assumptions C44_condensation.
Print Assumptions C44_embedded_system.
Print Assumptions C44_store_round_trip.
Print Assumptions C45_sign_changes.
Print Assumptions C45_material_levels_partial.
Print Assumptions C45_patch_partial.
Print Assumptions C45_boundary_node.
Print Assumptions C45_five_neighbours_refuted.
Print Assumptions C45_equal_angles_refuted.
Print Assumptions C69_marked_elements_are_cut.
Print Assumptions C69_recovery_assertions_hold.
