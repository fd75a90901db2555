(** Common vocabulary of the models.  Nothing here models code of /repo; it fixes how the C++
    notions "failed assertion", "array", "counted for loop" are represented. *)
From Coq Require Import List Arith Lia Reals Lra Bool.
Import ListNotations.

(** Distinct abnormal results.  [AssertFailed] is a failed libmesh_assert (debug build);
    [OutOfBounds], [NullDeref], [DoubleFree], [UseAfterFree] are undefined behaviour in C++. *)
Inductive fault : Type :=
| AssertFailed | OutOfBounds | NullDeref | DoubleFree | UseAfterFree
| DivByZero | LibError | OutOfFuel | Uninit.

Inductive outcome (A : Type) : Type :=
| Ok (a : A)
| Fault (f : fault).
Arguments Ok {A} a.
Arguments Fault {A} f.

Definition bind {A B} (m : outcome A) (k : A -> outcome B) : outcome B :=
  match m with Ok a => k a | Fault f => Fault f end.
Notation "x <- m ;; k" := (bind m (fun x => k))
  (at level 61, m at next level, right associativity).
Definition assert_ {A} (b : bool) (k : outcome A) : outcome A :=
  if b then k else Fault AssertFailed.

(** [for (i=0; i<n; i++) body] *)
Fixpoint loop {S : Type} (n : nat) (body : nat -> S -> outcome S) (s : S) : outcome S :=
  match n with
  | O => Ok s
  | S k => s' <- loop k body s ;; body k s'
  end.

(** Arrays with a length and checked access. *)
Record arr (A : Type) : Type := mkArr { len : nat; cell : nat -> A }.
Arguments mkArr {A} len cell.
Arguments len {A} a.
Arguments cell {A} a i.

Definition get {A} (v : arr A) (i : nat) : outcome A :=
  if i <? len v then Ok (cell v i) else Fault OutOfBounds.
Definition upd {A} (f : nat -> A) (i : nat) (x : A) : nat -> A :=
  fun k => if k =? i then x else f k.
Definition set {A} (v : arr A) (i : nat) (x : A) : outcome (arr A) :=
  if i <? len v then Ok (mkArr (len v) (upd (cell v) i x)) else Fault OutOfBounds.
Definition fill {A} (n : nat) (x : A) : arr A := mkArr n (fun _ => x).

(** Dense matrices with checked access. *)
Record mat (A : Type) : Type := mkMat { rows : nat; cols : nat; ent : nat -> nat -> A }.
Arguments mkMat {A} rows cols ent.
Arguments rows {A} m.
Arguments cols {A} m.
Arguments ent {A} m i j.

Definition mget {A} (m : mat A) (i j : nat) : outcome A :=
  if (i <? rows m) && (j <? cols m) then Ok (ent m i j) else Fault OutOfBounds.
Definition upd2 {A} (f : nat -> nat -> A) (i j : nat) (x : A) : nat -> nat -> A :=
  fun a b => if (a =? i) && (b =? j) then x else f a b.
Definition mset {A} (m : mat A) (i j : nat) (x : A) : outcome (mat A) :=
  if (i <? rows m) && (j <? cols m)
  then Ok (mkMat (rows m) (cols m) (upd2 (ent m) i j x)) else Fault OutOfBounds.
Definition mfill {A} (r c : nat) (x : A) : mat A := mkMat r c (fun _ _ => x).

(** [v(i) += x] and [m(i,j) += x] *)
Definition vadd (v : arr R) (i : nat) (x : R) : outcome (arr R) :=
  a <- get v i ;; set v i (a + x)%R.
Definition madd (m : mat R) (i j : nat) (x : R) : outcome (mat R) :=
  a <- mget m i j ;; mset m i j (a + x)%R.

(** Finite sums: [sum n f = f 0 + ... + f (n-1)]. *)
Fixpoint sum (n : nat) (f : nat -> R) : R :=
  match n with O => 0%R | S k => (sum k f + f k)%R end.

(** Sum over a list. *)
Definition lsum (l : list R) : R := fold_right Rplus 0%R l.
