(** Proofs about the eigenvectors. *)
From Coq Require Import List Arith Bool Reals Lra Lia Nsatz.
From Verif Require Import Base RBool Stre_Proofs Stre_Proofs2 Flui_Model Flui_Spec Flui_Proofs Flui_Proofs2 Flui_Proofs3.
Import ListNotations.
Open Scope R_scope.

Lemma main_dir_cases nx ny nz : nx * nx + ny * ny + nz * nz = 1 ->
  (main_dir nx ny nz = 1%nat /\ nx <> 0) \/ (main_dir nx ny nz = 2%nat /\ ny <> 0) \/ (main_dir nx ny nz = 3%nat /\ nz <> 0).
Proof.
  intros U. unfold main_dir.
  assert (Z : forall x, x = 0 -> Rabs x = 0) by (intros; subst; apply Rabs_R0).
  assert (Z' : forall x, Rabs x <= 0 -> x = 0) by (intros x Hx; destruct (Req_dec x 0); auto; pose proof (Rabs_pos_lt x H); lra).
  destruct (rleb (Rabs ny) (Rabs nx)) eqn:A; destruct (rleb (Rabs nz) (Rabs nx)) eqn:B; cbn [andb].
  - left. split; auto. intros E. pose proof (Z _ E). apply rleb_true in A, B. rewrite H in *. apply Z' in A, B. subst. lra.
  - destruct (rleb (Rabs nx) (Rabs ny)) eqn:C; destruct (rleb (Rabs nz) (Rabs ny)) eqn:D; cbn [andb].
    + right; left. split; auto. intros E. apply rleb_true in C, D. rewrite (Z _ E) in *. apply Z' in C, D. subst. lra.
    + destruct (rleb (Rabs nx) (Rabs nz)) eqn:G; destruct (rleb (Rabs ny) (Rabs nz)) eqn:H; cbn [andb];
      try (apply rleb_true in A); try (apply rleb_false in B); try (apply rleb_true in C); try (apply rleb_false in D); try (apply rleb_true in G); try (apply rleb_false in G); try (apply rleb_false in H); try (apply rleb_true in H); try lra.
      right; right. split; auto. intros E. rewrite (Z _ E) in *. apply Z' in G, H. subst. lra.
    + destruct (rleb (Rabs nx) (Rabs nz)) eqn:G; destruct (rleb (Rabs ny) (Rabs nz)) eqn:H; cbn [andb];
      try (apply rleb_true in A); try (apply rleb_false in B); try (apply rleb_false in C); try (apply rleb_true in D); try (apply rleb_true in G); try (apply rleb_false in G); try (apply rleb_false in H); try (apply rleb_true in H); try lra.
      all: right; right; split; auto; intros E; rewrite (Z _ E) in *; apply Z' in G, H; subst; lra.
    + destruct (rleb (Rabs nx) (Rabs nz)) eqn:G; destruct (rleb (Rabs ny) (Rabs nz)) eqn:H; cbn [andb];
      try (apply rleb_true in A); try (apply rleb_false in B); try (apply rleb_false in C); try (apply rleb_false in D); try (apply rleb_true in G); try (apply rleb_false in G); try (apply rleb_false in H); try (apply rleb_true in H); try lra.
      all: right; right; split; auto; intros E; rewrite (Z _ E) in *; apply Z' in G, H; subst; lra.
  - destruct (rleb (Rabs nx) (Rabs ny)) eqn:C; destruct (rleb (Rabs nz) (Rabs ny)) eqn:D; cbn [andb];
      try (apply rleb_false in A); try (apply rleb_true in B); try (apply rleb_true in C); try (apply rleb_false in C); try (apply rleb_true in D); try (apply rleb_false in D); try lra.
    right; left. split; auto. intros E. rewrite (Z _ E) in *. apply Z' in C, D. subst. lra.
  - destruct (rleb (Rabs nx) (Rabs ny)) eqn:C; destruct (rleb (Rabs nz) (Rabs ny)) eqn:D; cbn [andb].
    + right; left. split; auto. intros E. apply rleb_true in C, D. rewrite (Z _ E) in *. apply Z' in C, D. subst. lra.
    + destruct (rleb (Rabs nx) (Rabs nz)) eqn:G; destruct (rleb (Rabs ny) (Rabs nz)) eqn:H; cbn [andb];
      try (apply rleb_false in A); try (apply rleb_false in B); try (apply rleb_true in C); try (apply rleb_false in D); try (apply rleb_true in G); try (apply rleb_false in G); try (apply rleb_false in H); try (apply rleb_true in H); try lra.
      right; right. split; auto. intros E. rewrite (Z _ E) in *. apply Z' in G, H. subst. lra.
    + apply rleb_false in A, C. lra.
    + apply rleb_false in A, C. lra.
Qed.
Definition eig_fn (d : nat) (cv gm : R) (s : prim) (nv : vec) : vec * mx * mx := get_ok ((fun _ => 0), mx0, mx0) (eig d cv gm s nv).
Ltac ev5 := lazy [eig_fn eig along flux_fn adv_jac_fn get_ok adv_flux adv_jac writes vwrites mput vput W Z1 if3 if2 app Nat.ltb Nat.leb Nat.eqb andb Nat.add Nat.sub mx0 mvec mmul sum bind fst snd].

Section Eig.
Variables (d : nat) (cp cv : R) (s : prim) (nv : vec).
Hypothesis D : valid_dim d.
Hypothesis CV : cv <> 0.
Hypothesis CP : cp <> 0.
Hypothesis CC : cp <> cv.
Hypothesis AA : p_a s <> 0.
Hypothesis S : state d cp cv s.
Hypothesis A2 : p_a s * p_a s = cp / cv * (cp - cv) * p_T s.
Hypothesis U : unit_normal d nv.
Let e := eig_fn d cv (cp / cv) s nv.
Lemma eig_cases : let n i := if Nat.ltb i d then nv i else 0 in
  (main_dir (nv 0%nat) (n 1%nat) (n 2%nat) = 1%nat /\ nv 0%nat <> 0) \/
  ((1 < d)%nat /\ main_dir (nv 0%nat) (n 1%nat) (n 2%nat) = 2%nat /\ nv 1%nat <> 0) \/ ((2 < d)%nat /\ main_dir (nv 0%nat) (n 1%nat) (n 2%nat) = 3%nat /\ nv 2%nat <> 0).
Proof.
  cbv zeta. unfold unit_normal in U.
  assert (U' : nv 0%nat * nv 0%nat + (if Nat.ltb 1 d then nv 1%nat else 0) * (if Nat.ltb 1 d then nv 1%nat else 0) + (if Nat.ltb 2 d then nv 2%nat else 0) * (if Nat.ltb 2 d then nv 2%nat else 0) = 1).
  { revert U. dims D; cbn; lra. }
  destruct (main_dir_cases _ _ _ U') as [[A B]|[[A B]|[A B]]]; [left|right;left|right;right]; auto.
  - destruct (Nat.ltb_spec 1 d); [auto|lra].
  - destruct (Nat.ltb_spec 2 d); [auto|lra].
Qed.
Lemma eig_safe : eig d cv (cp / cv) s nv = Ok e.
Proof.
  unfold e, eig_fn. pose proof eig_cases as C. cbv zeta in C. unfold eig.
  dims D; cbn [Nat.ltb Nat.leb] in *; destruct C as [[A _]|[[L [A _]]|[L [A _]]]]; try lia; rewrite A; reflexivity.
Qed.
Lemma t_of_a : p_T s = p_a s * p_a s * cv / (cp * (cp - cv)).
Proof. rewrite A2. field. repeat split; auto; lra. Qed.
Lemma eig_left : forall i j, (i < 2 + d)%nat -> (j < 2 + d)%nat ->
  sum (2 + d) (fun k => snd (fst e) k i * along d (fun c => adv_jac_fn d c (cp - cv) cv (cp / cv) s) nv k j) = fst (fst e) i * snd (fst e) j i.
Proof.
  unfold e. destruct S as [SK ST SP S2 S3].
  assert (EE : p_e s = cv * p_T s + p_k s) by (rewrite ST; field; auto). clear ST SP.
  assert (G : cp - cv <> 0) by lra. pose proof t_of_a as TA. rewrite TA in EE.
  pose proof eig_cases as C. cbv zeta in C. unfold unit_normal in U. clear A2.
  dims D; cbn [sum] in U; cbn [Nat.add] in *; cbn [Nat.ltb Nat.leb] in C; destruct C as [[Q NX]|[[L [Q NX]]|[L [Q NX]]]]; try lia.
  all: intros i j Hi Hj; revert i Hi; below; revert j Hj; below; ev5; rewrite Q; ev5; rewrite ?EE, ?SK, ?TA; try rewrite S3 by lia; try rewrite S2 by lia.
  all: clear S2 S3 EE SK TA; clear e.
  all: revert U NX AA; generalize (nv 0%nat) (nv 1%nat) (nv 2%nat) (p_a s); intros x y z a U NX AA.
  all: first [ assert (W : x * x = 1 - y * y - z * z) by lra | assert (W : x * x = 1 - y * y) by lra | assert (W : x * x = 1) by lra ].
  all: clear U; field [W]; auto.
Qed.
Lemma eig_inv : forall i j, (i < 2 + d)%nat -> (j < 2 + d)%nat ->
  sum (2 + d) (fun k => snd (fst e) k i * snd e k j) = if Nat.eqb i j then 1 else 0.
Proof.
  unfold e. destruct S as [SK ST SP S2 S3].
  assert (EE : p_e s = cv * p_T s + p_k s) by (rewrite ST; field; auto). clear ST SP.
  assert (G : cp - cv <> 0) by lra. pose proof t_of_a as TA. rewrite TA in EE.
  pose proof eig_cases as C. cbv zeta in C. unfold unit_normal in U. clear A2.
  dims D; cbn [sum] in U; cbn [Nat.add] in *; cbn [Nat.ltb Nat.leb] in C; destruct C as [[Q NX]|[[L [Q NX]]|[L [Q NX]]]]; try lia.
  all: intros i j Hi Hj; revert i Hi; below; revert j Hj; below; ev5; rewrite Q; ev5; rewrite ?EE, ?SK, ?TA; try rewrite S3 by lia; try rewrite S2 by lia.
  all: clear S2 S3 EE SK TA; clear e.
  all: revert U NX AA; generalize (nv 0%nat) (nv 1%nat) (nv 2%nat) (p_a s); intros x y z a U NX AA.
  all: first [ assert (W : x * x = 1 - y * y - z * z) by lra | assert (W : x * x = 1 - y * y) by lra | assert (W : x * x = 1) by lra ].
  all: clear U; field [W]; auto.
Qed.
End Eig.
