(** C04, C05: complex/real conversion and the parallel sum (src/numerics/utility.h). *)
From Coq Require Import List Arith Lia Reals Lra Bool.
From Verif Require Import Base Utility_Model Utility_Spec Utility_Proofs.
Import ListNotations.
Open Scope R_scope.

(** C04: the complex matrix [e] assembled into a zero real matrix, times the stacked real and imaginary
    parts of any complex vector, is the stacked complex product. *)
Theorem C04_block_product : forall (e : mat cplx) (x : nat -> R * R),
  exists q, add_to_assembled_matrix (mfill (rows e * 2) (cols e * 2) 0) e = Ok q /\
    forall i, (i < rows e * 2)%nat ->
      rmv (cols e * 2) (ent q) (stack (cols e) x) i = stack (rows e) (cmv (cols e) (ent e) x) i.
Proof. exact block_product_ok. Qed.
Print Assumptions C04_block_product.

(** C04: assembly accumulates: what the real matrix held is kept and the four blocks are added. *)
Theorem C04_assembly_accumulates : forall a e,
  rows a = (rows e * 2)%nat -> cols a = (cols e * 2)%nat ->
  exists q, add_to_assembled_matrix a e = Ok q /\ rows q = rows a /\ cols q = cols a /\
    forall i j, (i < rows e)%nat -> (j < cols e)%nat ->
      ent q i j = ent a i j + fst (ent e i j) /\
      ent q (i + rows e)%nat (j + cols e)%nat = ent a (i + rows e)%nat (j + cols e)%nat + fst (ent e i j) /\
      ent q i (j + cols e)%nat = ent a i (j + cols e)%nat - snd (ent e i j) /\
      ent q (i + rows e)%nat j = ent a (i + rows e)%nat j + snd (ent e i j).
Proof. exact assemble_matrix_ok. Qed.
Print Assumptions C04_assembly_accumulates.

(** C04: converting back recovers the complex matrix. *)
Theorem C04_matrix_round_trip : forall (e m0 : mat cplx), rows m0 = rows e -> cols m0 = cols e ->
  exists q b, add_to_assembled_matrix (mfill (rows e * 2) (cols e * 2) 0) e = Ok q /\
    transform_to_elem_matrix m0 q = Ok b /\ rows b = rows e /\ cols b = cols e /\
    forall i j, (i < rows e)%nat -> (j < cols e)%nat -> ent b i j = ent e i j.
Proof. exact round_trip_matrix. Qed.
Print Assumptions C04_matrix_round_trip.

(** C04: the same for vectors; the assembled real vector is the stacked vector. *)
Theorem C04_vector_round_trip : forall (e v0 : arr cplx), len v0 = len e ->
  exists q b, add_to_assembled_vector (fill (len e * 2) 0) e = Ok q /\
    transform_to_elem_vector v0 q = Ok b /\ len b = len e /\
    (forall i, (i < len e * 2)%nat -> cell q i = stack (len e) (cell e) i) /\
    forall i, (i < len e)%nat -> cell b i = cell e i.
Proof. exact round_trip_vector. Qed.
Print Assumptions C04_vector_round_trip.

(** C05: whatever the number of ranks (at least one) and the common shape, every rank ends up with the
    entrywise sum of all matrices; instances of [plus]/[zero]: real and complex addition. *)
Theorem C05_parallel_sum : forall {A} (plus : A -> A -> A) zero r c (ranks : list (mat A)),
  ranks <> [] -> Forall (fun m => rows m = r /\ cols m = c) ranks ->
  exists qs, parallel_sum plus zero ranks = Ok qs /\ length qs = length ranks /\
    Forall (fun q => rows q = r /\ cols q = c /\
      forall i j, (i < r)%nat -> (j < c)%nat ->
        ent q i j = fold_right plus zero (map (fun m => ent m i j) ranks)) qs.
Proof. exact @parallel_sum_ok. Qed.
Print Assumptions C05_parallel_sum.

Example C04_nonvacuous :
  let e := mkMat 1 2 (fun i j => (INR j, 1)) in
  stack 1 (cmv 2 (ent e) (fun _ => (0, 1))) 0 = -2 /\ rows (mfill 2 4 0) = (rows e * 2)%nat.
Proof. split; [|reflexivity]. unfold stack, cmv, csum, cmul; simpl; lra. Qed.

Example C05_nonvacuous :
  let ranks := [mkMat 2 3 (fun i j => INR (i + j)); mfill 2 3 1; mfill 2 3 2] in
  ranks <> [] /\ Forall (fun m => rows m = 2%nat /\ cols m = 3%nat) ranks /\
  fold_right Rplus 0 (map (fun m => ent m 1%nat 1%nat) ranks) = 5.
Proof. simpl; repeat split; try discriminate; [repeat constructor|lra]. Qed.
