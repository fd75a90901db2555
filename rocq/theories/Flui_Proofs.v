(** Proofs about the primitive state. *)
From Coq Require Import List Arith Bool Reals Lra Lia.
From Verif Require Import Base RBool Stre_Proofs Stre_Proofs2 Flui_Model Flui_Spec.
Import ListNotations.
Open Scope R_scope.

Lemma dNE f t0 a : derivable_pt_lim f t0 a -> derivable_pt_lim (fun t => - f t) t0 (- a).
Proof. intros H. apply (derivable_pt_lim_opp f). auto. Qed.
Lemma dDI' f g t0 a b : g t0 <> 0 -> derivable_pt_lim f t0 a -> derivable_pt_lim g t0 b ->
  derivable_pt_lim (fun t => f t / g t) t0 ((a * g t0 - b * f t0) / Rsqr (g t0)).
Proof. intros N F G. apply (derivable_pt_lim_div f g); auto. Qed.
Lemma dSQ f t0 a : 0 < f t0 -> derivable_pt_lim f t0 a -> derivable_pt_lim (fun t => sqrt (f t)) t0 (/ (2 * sqrt (f t0)) * a).
Proof. intros P F. apply (deriv_comp sqrt f); auto. apply derivable_pt_lim_sqrt. auto. Qed.
Lemma dLN f t0 a : 0 < f t0 -> derivable_pt_lim f t0 a -> derivable_pt_lim (fun t => ln (f t)) t0 (/ f t0 * a).
Proof. intros P F. apply (deriv_comp ln f); auto. apply derivable_pt_lim_ln. auto. Qed.
Lemma dPW f y t0 a : 0 < f t0 -> derivable_pt_lim f t0 a -> derivable_pt_lim (fun t => Rpower (f t) y) t0 (y * Rpower (f t0) (y - 1) * a).
Proof. intros P F. apply (deriv_comp (fun x => Rpower x y) f); auto. apply derivable_pt_lim_power. auto. Qed.

Lemma dIF (b : bool) f t0 a : derivable_pt_lim f t0 a -> derivable_pt_lim (fun t => if b then f t else 0) t0 (if b then a else 0).
Proof. destruct b; auto. intros _. apply dCO. Qed.
Lemma dSU f t0 a : 0 < f t0 -> derivable_pt_lim f t0 a -> derivable_pt_lim (fun t => suth (f t)) t0
  ((1458 / 1000000000) * a * ((3/2) * Rpower (f t0) (1/2) / (f t0 + 1104/10) - Rpower (f t0) (3/2) / ((f t0 + 1104/10) * (f t0 + 1104/10)))).
Proof.
  intros P F. unfold suth. eapply deriv_eq; [|apply (dDI' (fun t => 1458 / 1000000000 * Rpower (f t) (3 / 2)) (fun t => f t + 1104 / 10)); [lra|apply dSC, dPW; [exact P|exact F]|apply dPL; [exact F|apply dCO]]].
  replace (3 / 2 - 1) with (1 / 2) by field. unfold Rsqr. field. lra.
Qed.

(** Derivatives by structure; leaves are looked up in the hypotheses. *)
Ltac dd :=
  first
  [ simple apply dCO
  | lazymatch goal with
  | |- derivable_pt_lim (fun s => @?f s + @?g s) _ _ => eapply (dPL f g); dd
  | |- derivable_pt_lim (fun s => @?f s - @?g s) _ _ => eapply (dMI f g); dd
  | |- derivable_pt_lim (fun s => @?f s * @?g s) _ _ => eapply (dMU f g); dd
  | |- derivable_pt_lim (fun s => @?f s / @?g s) _ _ => eapply (dDI' f g); [|dd|dd]
  | |- derivable_pt_lim (fun s => - @?f s) _ _ => eapply (dNE f); dd
  | |- _ => eassumption || match goal with H : forall i, derivable_pt_lim _ _ _ |- _ => eapply H end
  end ].

Ltac dims H := destruct H as [->|[->| ->]].
(** Every index below the length. *)
Lemma below_3 (P : nat -> Prop) : P 0%nat -> P 1%nat -> P 2%nat -> forall i, (i < 3)%nat -> P i.
Proof. intros. destruct i as [|[|[|]]]; auto; lia. Qed.
Lemma below_4 (P : nat -> Prop) : P 0%nat -> P 1%nat -> P 2%nat -> P 3%nat -> forall i, (i < 4)%nat -> P i.
Proof. intros. destruct i as [|[|[|[|]]]]; auto; lia. Qed.
Lemma below_5 (P : nat -> Prop) : P 0%nat -> P 1%nat -> P 2%nat -> P 3%nat -> P 4%nat -> forall i, (i < 5)%nat -> P i.
Proof. intros. destruct i as [|[|[|[|[|]]]]]; auto; lia. Qed.

Section Path.
Variables (d : nat) (cp cv : R) (visc : bool) (U : R -> vec) (s0 : R) (V : vec).
Hypothesis D : valid_dim d.
Hypothesis F : follows U s0 V.
Let s t := prim_of d cp cv visc (U t).
Let q := pert_of d cp cv visc (s s0) V.
Hypothesis Rho : U s0 0%nat <> 0.
Lemma path_rho : derivable_pt_lim (fun t => p_rho (s t)) s0 (d_rho q).
Proof. cbn. apply F. Qed.
Lemma path_div i : derivable_pt_lim (fun t => U t i / U t 0%nat) s0 ((V i - V 0%nat * (U s0 i / U s0 0%nat)) / U s0 0%nat).
Proof.
  eapply deriv_eq; [|apply (dDI' (fun t => U t i) (fun t => U t 0%nat)); [auto|apply F|apply F]]. unfold Rsqr. field. auto.
Qed.
Lemma path_u1 : derivable_pt_lim (fun t => p_u1 (s t)) s0 (d_u1 q).
Proof. cbn. apply path_div. Qed.
Lemma path_u2 : derivable_pt_lim (fun t => p_u2 (s t)) s0 (d_u2 q).
Proof. cbn. dims D; cbn; try apply path_div. apply dCO. Qed.
Lemma path_u3 : derivable_pt_lim (fun t => p_u3 (s t)) s0 (d_u3 q).
Proof. cbn. dims D; cbn; try apply path_div; apply dCO. Qed.
Lemma path_k : derivable_pt_lim (fun t => p_k (s t)) s0 (d_k q).
Proof.
  pose proof path_u1 as A. pose proof path_u2 as B. pose proof path_u3 as C.
  change (derivable_pt_lim (fun t => (1/2) * (p_u1 (s t) * p_u1 (s t) + p_u2 (s t) * p_u2 (s t) + p_u3 (s t) * p_u3 (s t))) s0 (d_k q)).
  eapply deriv_eq; [|dd]. unfold q. dims D; cbn; field; auto.
Qed.
Lemma path_e : derivable_pt_lim (fun t => p_e (s t)) s0 (d_e q).
Proof. cbn. apply path_div. Qed.
Hypothesis Cv : cv <> 0.
Lemma path_T : derivable_pt_lim (fun t => p_T (s t)) s0 (d_T q).
Proof.
  pose proof path_k as A. pose proof path_e as B. change (derivable_pt_lim (fun t => (p_e (s t) - p_k (s t)) / cv) s0 (d_T q)).
  eapply deriv_eq; [|dd; auto]. change (d_T q) with ((d_e q - d_k q) / cv). unfold Rsqr. field. auto.
Qed.
Lemma path_p : derivable_pt_lim (fun t => p_p (s t)) s0 (d_p q).
Proof.
  pose proof path_rho as A. pose proof path_T as B. change (derivable_pt_lim (fun t => (cp - cv) * p_T (s t) * p_rho (s t)) s0 (d_p q)).
  eapply deriv_eq; [|dd]. change (d_p q) with ((cp - cv) * (d_T q * p_rho (s s0) + p_T (s s0) * d_rho q)). ring.
Qed.
Hypothesis Gas : 0 < cv < cp.
Hypothesis Temp : 0 < p_T (s s0).
Lemma gR_pos : 0 < cp / cv * (cp - cv).
Proof. apply Rmult_lt_0_compat; [apply Rdiv_lt_0_compat|]; lra. Qed.
Lemma a_pos : 0 < p_a (s s0).
Proof. apply sqrt_lt_R0. apply (Rmult_lt_0_compat _ _ gR_pos Temp). Qed.
Lemma path_a : derivable_pt_lim (fun t => p_a (s t)) s0 (d_a q).
Proof.
  pose proof path_T as B. pose proof gR_pos as G. change (derivable_pt_lim (fun t => sqrt (cp / cv * (cp - cv) * p_T (s t))) s0 (d_a q)).
  eapply deriv_eq; [|apply (dSQ (fun t => cp / cv * (cp - cv) * p_T (s t))); [apply Rmult_lt_0_compat; auto|dd]].
  change (d_a q) with ((1/2) * sqrt (cp / cv * (cp - cv) / p_T (s s0)) * d_T q).
  rewrite sqrt_div by lra. rewrite sqrt_mult by lra. set (g := sqrt (cp / cv * (cp - cv))). set (r := sqrt (p_T (s s0))).
  assert (0 < g) by (apply sqrt_lt_R0; auto). assert (0 < r) by (apply sqrt_lt_R0; auto).
  replace (cp / cv * (cp - cv)) with (g * g) by (apply sqrt_sqrt; lra). field. lra.
Qed.
Lemma path_mach v : 0 < p_k (s s0) -> d_mach q = Ok v -> derivable_pt_lim (fun t => p_mach (s t)) s0 v.
Proof.
  intros K E. pose proof path_a as A. pose proof path_k as B. pose proof a_pos as P.
  change (derivable_pt_lim (fun t => sqrt (2 * p_k (s t)) / p_a (s t)) s0 v).
  eapply deriv_eq; [|apply (dDI' (fun t => sqrt (2 * p_k (s t))) (fun t => p_a (s t))); [lra| |exact A]; apply (dSQ (fun t => 2 * p_k (s t))); [lra|dd]].
  assert (R1 : sqrt (2 * p_k (s s0)) <> 0) by (apply Rgt_not_eq, sqrt_lt_R0; lra).
  replace v with (d_k q / sqrt (2 * p_k (s s0)) / p_a (s s0) - sqrt (2 * p_k (s s0)) / (p_a (s s0) * p_a (s s0)) * d_a q).
  - unfold Rsqr. field. split; [lra|auto].
  - change (d_mach q) with (if reqb (p_k (s s0)) 0 then Fault DivByZero else Ok (d_k q / sqrt (2 * p_k (s s0)) / p_a (s s0) - sqrt (2 * p_k (s s0)) / (p_a (s s0) * p_a (s s0)) * d_a q)) in E.
    destruct (reqb (p_k (s s0)) 0); [discriminate|]. injection E; auto.
Qed.
Hypothesis Pos : 0 < U s0 0%nat.
Lemma path_entropy : derivable_pt_lim (fun t => p_entropy (s t)) s0 (d_entropy q).
Proof.
  pose proof path_p as A. pose proof path_rho as B. assert (P : 0 < p_p (s s0)) by (apply Rmult_lt_0_compat; [apply Rmult_lt_0_compat; [lra|exact Temp]|exact Pos]).
  change (derivable_pt_lim (fun t => ln (p_p (s t) / Rpower (p_rho (s t)) (cp / cv))) s0 (d_entropy q)).
  assert (W : forall y, 0 < Rpower (p_rho (s s0)) y) by (intros; unfold Rpower; apply exp_pos).
  eapply deriv_eq; [|apply (dLN (fun t => p_p (s t) / Rpower (p_rho (s t)) (cp / cv))); [apply Rdiv_lt_0_compat; auto|];
    apply (dDI' (fun t => p_p (s t)) (fun t => Rpower (p_rho (s t)) (cp / cv))); [apply Rgt_not_eq, W|exact A|apply (dPW (fun t => p_rho (s t))); [exact Pos|exact B]]].
  change (d_entropy q) with ((d_p q / Rpower (p_rho (s s0)) (cp / cv) - cp / cv * p_p (s s0) / Rpower (p_rho (s s0)) (cp / cv + 1) * d_rho q) / (p_p (s s0) / Rpower (p_rho (s s0)) (cp / cv))).
  assert (E1 : Rpower (p_rho (s s0)) (cp / cv - 1) = Rpower (p_rho (s s0)) (cp / cv) / p_rho (s s0)).
  { unfold Rminus. rewrite Rpower_plus, Rpower_Ropp, Rpower_1; auto. }
  assert (E2 : Rpower (p_rho (s s0)) (cp / cv + 1) = Rpower (p_rho (s s0)) (cp / cv) * p_rho (s s0)).
  { rewrite Rpower_plus, Rpower_1; auto. }
  rewrite E1, E2. assert (N := W (cp / cv)). revert N. generalize (Rpower (p_rho (s s0)) (cp / cv)). intros w N. unfold Rsqr. change (p_rho (s s0)) with (U s0 0%nat). field. repeat split; lra.
Qed.
Lemma path_mu : derivable_pt_lim (fun t => p_mu (s t)) s0 (d_mu q).
Proof.
  pose proof path_T as A.
  apply (dIF visc (fun t => suth (p_T (s t)))). eapply deriv_eq; [|apply dSU; [exact Temp|exact A]]. change (d_T (pert_of d cp cv visc (prim_of d cp cv visc (U s0)) V)) with (d_T q). reflexivity.
Qed.
Lemma path_lambda : derivable_pt_lim (fun t => p_lambda (s t)) s0 (d_lambda q).
Proof. pose proof path_mu as A. apply (dIF visc (fun t => -2 / 3 * p_mu (s t))). apply dSC. exact A. Qed.
Lemma path_kth : derivable_pt_lim (fun t => p_kth (s t)) s0 (d_kth q).
Proof.
  pose proof path_mu as A. change (d_kth q) with (if visc then d_mu q * cp / pr_number else 0). apply (dIF visc (fun t => p_mu (s t) * cp / pr_number)).
  eapply deriv_eq; [|dd]; unfold pr_number, Rsqr; [field|lra].
Qed.
End Path.
