From Coq Require Import Reals Lra.
From Coquelicot Require Import Coquelicot.
From Coq Require Import List Arith Bool Lia.
From Verif Require Import Base BaseLemmas Sens_Spec Sens_Proofs Sens_Proofs2 Heat_Proofs Solid_Model Solid_Spec Solid_Proofs2 Dof6_Model Dof6_Proofs Beam_Spec Beam_Proofs Beam_Proofs2 Plate_Model Plate_Spec Plate_Proofs Plate_Proofs2 Plate_Proofs3.
Import ListNotations.
Open Scope R_scope.

Ltac lt3 r := destruct r as [|[|[|r]]]; [| | |exfalso; lia].
Section B.
Variable n : nat.
Variable nl : bool.
Variable b : plate.
Hypothesis FIT : pfits b n.
Notation g := (grad n).
Notation kap := (curvature b n).
Notation Nf := (Nf n nl b).
Notation wf := (wf n nl b).
Notation wj := (wj n nl b).
Notation miss := (miss n nl b).
Notation dlin := (dlin n).
Notation sym2 := (sym2 n).
Notation dgl := (dgl n nl).
Notation dvk := (dvk n nl b).
Notation deps := (deps n nl b).
Notation eps := (eps n nl b).
Notation WF := (WF n nl b).
Notation WJ := (WJ n nl b).
Notation MISS := (MISS n nl b).

Section H.
Variables (u : R -> dofs) (du : dofs) (t0 : R).
Hypothesis HU : history6 n t0 u du.
Lemma der_g q c i : (c < 6)%nat -> is_derive (fun s => g q (u s) c i) t0 (g q du c i).
Proof. intros Hc. unfold grad. apply der_sum. intros a Ha. apply der_scal. auto. Qed.
Lemma der_kap q r : is_derive (fun s => kap q (u s) r) t0 (kap q du r).
Proof.
  assert (K : forall r, (r < 3)%nat -> is_derive (fun s => kap q (u s) r) t0 (kap q du r)).
  { intros k Hk. apply Nat.ltb_lt in Hk. apply (der_ext (fun s => vm n (pbend b q) (u s) k) _ t0 (vm n (pbend b q) du k)); [| |now apply der_vm]; intros; rewrite vm_bend by auto; now rewrite Hk. }
  destruct r as [|[|r]]; [apply K; lia|apply K; lia|]. exact (K 2%nat ltac:(lia)).
Qed.
Lemma der_gam q r : is_derive (fun s => pgamma n q (u s) r) t0 (pgamma n q du r).
Proof.
  unfold pgamma. apply der_plus; [apply der_g; lia|].
  apply der_sum. intros a Ha. destruct r as [|r]; cbn [node_beta].
  - apply der_scal. apply HU; auto; lia.
  - apply (der_ext (fun s => (- phi q a) * u s 3%nat a) _ t0 (- phi q a * du 3%nat a)); [intros; ring|ring|]. apply der_scal. apply HU; auto; lia.
Qed.
Ltac gl := idtac; lazymatch goal with |- is_derive (fun s => grad _ _ (@?x s) ?c ?i) _ _ => apply (der_g _ c i); lia end.
Lemma der_eps q r : is_derive (fun s => eps q (u s) r) t0 (deps q (u t0) du r).
Proof.
  unfold Plate_Proofs2.eps, membrane, Plate_Proofs2.deps, Plate_Proofs2.dlin, Plate_Proofs2.dgl, Plate_Proofs2.dvk, Plate_Proofs2.sym2.
  destruct nl, (pbends b); cbn [andb flag]; (destruct r as [|[|r]]; (eapply der_eq; [dd ltac:(gl)|cbv beta; field])).
Qed.
Lemma der_deps q d r : is_derive (fun s => deps q (u s) d r) t0 (dgl q du d r + dvk q du d r).
Proof.
  unfold Plate_Proofs2.deps, Plate_Proofs2.dlin, Plate_Proofs2.dgl, Plate_Proofs2.dvk, Plate_Proofs2.sym2.
  destruct nl, (pbends b); cbn [andb flag]; (destruct r as [|[|r]]; (eapply der_eq; [dd ltac:(gl)|cbv beta; field])).
Qed.
Lemma der_dgl q d r : is_derive (fun s => dgl q (u s) d r) t0 (dgl q du d r).
Proof.
  unfold Plate_Proofs2.dgl, Plate_Proofs2.sym2.
  destruct nl; cbn [andb flag]; (destruct r as [|[|r]]; (eapply der_eq; [dd ltac:(gl)|cbv beta; field])).
Qed.
Lemma der_dvk q d r : is_derive (fun s => dvk q (u s) d r) t0 (dvk q du d r).
Proof.
  unfold Plate_Proofs2.dvk, Plate_Proofs2.sym2.
  destruct nl, (pbends b); cbn [andb flag]; (destruct r as [|[|r]]; (eapply der_eq; [dd ltac:(gl)|cbv beta; field])).
Qed.
Lemma der_Nf S q r : is_derive (fun s => Nf S q (u s) r) t0 (sum 3 (fun l => pA S r l * deps q (u t0) du l) + sum 3 (fun l => pB S r l * kap q du l)).
Proof.
  unfold Plate_Proofs2.Nf. apply der_plus; apply der_sum; intros l Hl; apply der_scal; [apply der_eps|apply der_kap].
Qed.
Ltac lf := idtac; lazymatch goal with
  | |- is_derive (fun s => Plate_Proofs2.eps _ _ _ _ (@?x s) ?r) _ _ => apply (der_eps _ r)
  | |- is_derive (fun s => curvature _ _ _ (@?x s) ?r) _ _ => apply (der_kap _ r)
  | |- is_derive (fun s => Plate_Proofs2.deps _ _ _ _ (@?x s) ?d ?r) _ _ => apply (der_deps _ d r)
  | |- is_derive (fun s => Plate_Proofs2.dgl _ _ _ (@?x s) ?d ?r) _ _ => apply (der_dgl _ d r)
  | |- is_derive (fun s => Plate_Proofs2.dvk _ _ _ _ (@?x s) ?d ?r) _ _ => apply (der_dvk _ d r)
  | |- is_derive (fun s => Plate_Proofs2.Nf _ _ _ _ _ (@?x s) ?r) _ _ => apply (der_Nf _ _ r)
  | |- is_derive (fun s => pgamma _ _ (@?x s) ?r) _ _ => apply (der_gam _ r)
  end.
Lemma der_density S q : psym S -> is_derive (fun s => pdensity nl b n S q (u s)) t0 (wf S q (u t0) du).
Proof.
  intros [HA HD]. unfold pdensity. cbv zeta.
  change (fun s : R => membrane nl (nl && pbends b) n q (u s)) with (fun s => eps q (u s)).
  assert (A1 := HA 1%nat 0%nat ltac:(lia) ltac:(lia)). assert (A2 := HA 2%nat 0%nat ltac:(lia) ltac:(lia)). assert (A3 := HA 2%nat 1%nat ltac:(lia) ltac:(lia)).
  assert (D1 := HD 1%nat 0%nat ltac:(lia) ltac:(lia)). assert (D2 := HD 2%nat 0%nat ltac:(lia) ltac:(lia)). assert (D3 := HD 2%nat 1%nat ltac:(lia) ltac:(lia)).
  cbn [sum].
  apply (der_fun (fun s => let e := eps q (u s) in let k := kap q (u s) in 1/2 * (sum 3 (fun i => sum 3 (fun l => e i * (pA S i l * e l))))
    + sum 3 (fun i => sum 3 (fun l => e i * (pB S i l * k l))) + 1/2 * (sum 3 (fun i => sum 3 (fun l => k i * (pD S i l * k l)))))).
  { intros s. reflexivity. }
  cbv zeta. cbn [sum]. eapply der_eq; [dd ltac:(lf)|]. cbv beta. unfold Plate_Proofs2.wf, Plate_Proofs2.Nf. cbn [sum]. rewrite A1, A2, A3, D1, D2, D3. field.
Qed.
Lemma der_shear_density G q : msym 2 G -> is_derive (fun s => pshear_density n G q (u s)) t0 (sf n G q (u t0) du).
Proof.
  intros HG. unfold pshear_density, sf. cbn [sum]. assert (G1 := HG 1%nat 0%nat ltac:(lia) ltac:(lia)).
  eapply der_eq; [dd ltac:(lf)|]. cbv beta. rewrite G1. field.
Qed.
Lemma der_wf S q d : is_derive (fun s => wf S q (u s) d) t0 (wj S q (u t0) d du).
Proof.
  unfold Plate_Proofs2.wf, Plate_Proofs3.wj. apply (der_fun (fun s => sum 3 (fun r => Nf S q (u s) r * deps q (u s) d r) +
    sum 3 (fun r => kap q d r * (sum 3 (fun l => pB S l r * eps q (u s) l) + sum 3 (fun l => pD S r l * kap q (u s) l))))); [reflexivity|].
  cbn [sum]. eapply der_eq; [dd ltac:(lf)|]. cbv beta. cbn [sum]. ring.
Qed.
Lemma der_sf G q d : is_derive (fun s => sf n G q (u s) d) t0 (sf n G q du d).
Proof. unfold sf. cbn [sum]. eapply der_eq; [dd ltac:(lf)|]. cbv beta. ring. Qed.
Lemma der_energy qs sq S G : (forall q, In q qs -> psym (S q)) -> (pshears b = true -> forall q, In q sq -> msym 2 (G q)) ->
  is_derive (fun s => plate_energy nl b n qs sq S G (u s)) t0 (WF qs sq S G (u t0) du).
Proof.
  intros HS HG. unfold plate_energy, Plate_Proofs3.WF. eapply der_add; [| |reflexivity].
  - apply (der_int qs (fun s q => pdensity nl b n (S q) q (u s))). intros q Hq. apply der_density. auto.
  - destruct (pshears b); [|apply der_cst; reflexivity].
    apply (der_int sq (fun s q => pshear_density n (G q) q (u s))). intros q Hq. apply der_shear_density. auto.
Qed.
Lemma der_WF qs sq S G d : is_derive (fun s => WF qs sq S G (u s) d) t0 (WJ qs sq S G (u t0) d du).
Proof.
  unfold Plate_Proofs3.WF, Plate_Proofs3.WJ. eapply der_add; [| |reflexivity].
  - apply (der_int qs (fun s q => wf (S q) q (u s) d)). intros q Hq. now apply der_wf.
  - destruct (pshears b); [|apply der_cst; reflexivity].
    apply (der_int sq (fun s q => sf n (G q) q (u s) d)). intros q Hq. apply der_sf.
Qed.
(** second derivative *)
Definition wjj (S : psect) (q : qpt) (u us d v : dofs) : R :=
  sum 3 (fun r => sum 3 (fun l => pA S r l * (dgl q us v l + dvk q us v l)) * deps q u d r)
  + sum 3 (fun r => (sum 3 (fun l => pA S r l * deps q u v l) + sum 3 (fun l => pB S r l * kap q v l)) * (dgl q us d r + dvk q us d r))
  + sum 3 (fun r => (sum 3 (fun l => pA S r l * deps q u us l) + sum 3 (fun l => pB S r l * kap q us l)) * (dgl q v d r + dvk q v d r))
  + sum 3 (fun r => kap q d r * sum 3 (fun l => pB S l r * (dgl q us v l + dvk q us v l))).
Definition missd (S : psect) (q : qpt) (u us d v : dofs) : R :=
  sum 3 (fun r => sum 3 (fun l => pA S r l * (dvk q us v l * dgl q u d r + dvk q u v l * dgl q us d r + dgl q us v l * dvk q u d r + dgl q u v l * dvk q us d r)
    + pB S r l * (kap q v l * dgl q us d r + kap q d l * dgl q us v r))).
Lemma der_wj S q d v : is_derive (fun s => wj S q (u s) d v) t0 (wjj S q (u t0) du d v).
Proof.
  unfold Plate_Proofs3.wj, wjj. cbn [sum]. eapply der_eq; [dd ltac:(lf)|]. cbv beta. cbn [sum]. ring.
Qed.
Lemma der_miss S q d v : is_derive (fun s => miss S q (u s) d v) t0 (missd S q (u t0) du d v).
Proof.
  unfold Plate_Proofs3.miss, missd. cbn [sum]. eapply der_eq; [dd ltac:(lf)|]. cbv beta. ring.
Qed.
End H.
End B.
