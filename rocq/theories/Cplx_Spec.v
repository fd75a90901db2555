(** Specification for C24: the complex linear system of the same elements. *)
From Coq Require Import Reals List Arith Bool.
From Verif Require Import Base Cplx_Model.
Import ListNotations.
Open Scope R_scope.

Definition cadd (a b : cpx) : cpx := (fst a + fst b, snd a + snd b).
Definition cmul (a b : cpx) : cpx := (fst a * fst b - snd a * snd b, fst a * snd b + snd a * fst b).
Definition copp (a : cpx) : cpx := (- fst a, - snd a).
Definition c0 : cpx := (0, 0).
Fixpoint csum (n : nat) (f : nat -> cpx) : cpx :=
  match n with O => c0 | S k => cadd (csum k f) (f k) end.
Fixpoint clsum (l : list cpx) : cpx := match l with [] => c0 | a :: l => cadd a (clsum l) end.

(** global complex matrix and vector: the sum of the element contributions at the global dofs *)
Definition global_mat (mat : celem -> nat -> nat -> cpx) (es : list celem) (a b : nat) : cpx :=
  clsum (map (fun e => csum (e_n e) (fun i => csum (e_n e) (fun j =>
    if Nat.eqb (e_dof e i) a && Nat.eqb (e_dof e j) b then mat e i j else c0))) es).
Definition global_vec (v : celem -> nat -> cpx) (es : list celem) (a : nat) : cpx :=
  clsum (map (fun e => csum (e_n e) (fun i => if Nat.eqb (e_dof e i) a then v e i else c0)) es).
(** J z + r = 0 *)
Definition solves (N : nat) (J : nat -> nat -> cpx) (r z : nat -> cpx) : Prop :=
  forall a, (a < N)%nat -> cadd (csum N (fun b => cmul (J a b) (z b))) (r a) = c0.
(** exact real solve *)
Definition real_solves (n : nat) (A : mat R) (b x : vec) : Prop :=
  forall i, (i < n)%nat -> sum n (fun j => ent A i j * x j) = b i.
Definition in_range (N : nat) (es : list celem) : Prop :=
  forall e i, In e es -> (i < e_n e)%nat -> (e_dof e i < N)%nat.
