(** Model of the density/level-set filter, /repo/src/level_set/filter_base.cpp. *)
From Coq Require Import List Arith Lia Bool Reals.
From Verif Require Import Base RBool.
Import ListNotations.
Open Scope nat_scope.

(** libMesh::Point (three coordinates) and the norm of a difference. *)
Definition pt : Type := (R * R * R)%type.
Definition dist2 (p q : pt) : R :=
  match p, q with
  | (a, b, c), (x, y, z) => ((a - x) * (a - x) + (b - y) * (b - y) + (c - z) * (c - z))%R
  end.
Definition dist (p q : pt) : R := sqrt (dist2 p q).

(** A mesh node: the dof number of variable 0, component 0 of the level-set system, and the
    position. *)
Definition node : Type := (nat * pt)%type.

(** filter_base.h L126: std::map<unsigned int, std::vector<std::pair<unsigned int, Real>>>, in the
    order of iteration (increasing keys). *)
Definition fmap : Type := list (nat * list (nat * R)).

(** [_filter_map[k].push_back(v)] *)
Fixpoint mpush (k : nat) (v : nat * R) (m : fmap) : fmap :=
  match m with
  | [] => [(k, [v])]
  | (j, l) :: t => if k <? j then (k, [v]) :: m
                   else if k =? j then (j, l ++ [v]) :: t else (j, l) :: mpush k v t
  end.
(** the vector at a key; operator[] would insert an empty one *)
Fixpoint mfind (k : nat) (m : fmap) : list (nat * R) :=
  match m with [] => [] | (j, l) :: t => if k =? j then l else mfind k t end.
(** overwrite the vector at an existing key *)
Fixpoint mput (k : nat) (v : list (nat * R)) (m : fmap) : fmap :=
  match m with [] => [] | (j, l) :: t => if k =? j then (j, v) :: t else (j, l) :: mput k v t end.

(** filter_base.cpp L405-437 (and L308-361): the loop over nodes.  [nbr n] are the nodes found
    within the radius of [n], in the order found, each with its distance. *)
Fixpoint init_nodes (r : R) (nbr : node -> list (nat * R)) (todo : list node) (m : fmap)
  : outcome fmap :=
  match todo with
  | [] => Ok m
  | n :: rest =>
      let k := fst n in
      let m1 := fold_left (fun m e => mpush k (fst e, (r - snd e)%R) m) (nbr n) m in
      let s := fold_left (fun s e => (s + (r - snd e))%R) (nbr n) 0%R in
      assert_ (rltb 0 s)
      (let v := map (fun e => (fst e, (snd e / s)%R)) (mfind k m1) in
       assert_ (forallb (fun e => rleb (snd e) 1) v)
       (init_nodes r nbr rest (mput k v m1)))
  end.

(** filter_base.cpp L413-427: linear search, [d_12 <= _radius]. *)
Definition nbr_linear (r : R) (nodes : list node) (n : node) : list (nat * R) :=
  map (fun q => (fst q, dist (snd n) (snd q)))
      (filter (fun q => rleb (dist (snd n) (snd q)) r) nodes).

(** filter_base.cpp L378-437 (_init). *)
Definition init_linear (r : R) (nodes : list node) : outcome fmap :=
  assert_ (rltb 0 r) (init_nodes r (nbr_linear r nodes) nodes []).

(** filter_base.cpp L318-345: KD-tree search (nanoflann, external): [kd p r2] lists the nodes
    found with their squared distances; the distance is the square root, asserted <= radius. *)
Definition nbr_kd (r : R) (kd : pt -> R -> list (nat * R)) (n : node) : list (nat * R) :=
  map (fun e => (fst e, sqrt (snd e))) (kd (snd n) (r * r)%R).

(** filter_base.cpp L275-361 (_init2). *)
Definition init_kd (r : R) (kd : pt -> R -> list (nat * R)) (nodes : list node) : outcome fmap :=
  assert_ (rltb 0 r)
  (assert_ (forallb (fun n => forallb (fun e => rleb (snd e) r) (nbr_kd r kd n)) nodes)
   (init_nodes r (nbr_kd r kd) nodes [])).

(** Elem::hmax (libMesh): largest distance between two vertices; an element is the list of its
    node positions. *)
Definition hmax (e : list pt) : R :=
  fold_left (fun m p => fold_left (fun m q => if rltb m (dist p q) then dist p q else m) e m) e 0%R.

(** filter_base.cpp L439-450 / L363-372: largest element size of the level-set mesh. *)
Definition fe_size (elems : list (list pt)) : R :=
  fold_left (fun m e => if rltb m (hmax e) then hmax e else m) elems 0%R.

(** filter_base.cpp L59-95: NumericVector overload on a rank owning [lo, hi). *)
Fixpoint nv_entry (dv : nat -> bool) (lo hi : nat) (x : arr R) (k : nat) (l : list (nat * R))
  (out : arr R) : outcome (arr R) :=
  match l with
  | [] => Ok out
  | e :: t =>
      o <- (if (lo <=? k) && (k <? hi) then
              if dv k then xv <- get x (fst e) ;; vadd out k (xv * snd e)%R
              else xv <- get x k ;; set out k xv
            else Ok out) ;;
      nv_entry dv lo hi x k t o
  end.
Fixpoint nv_entries (dv : nat -> bool) (lo hi : nat) (x : arr R) (m : fmap) (out : arr R)
  : outcome (arr R) :=
  match m with
  | [] => Ok out
  | (k, l) :: t => o <- nv_entry dv lo hi x k l out ;; nv_entries dv lo hi x t o
  end.
Definition filter_numeric (m : fmap) (dv : nat -> bool) (lo hi : nat) (x out : arr R)
  : outcome (arr R) :=
  assert_ (len x =? length m) (assert_ (len out =? length m)
    (nv_entries dv lo hi x m (fill (len out) 0%R))).

(** filter_base.cpp L142-167: std::vector overload. *)
Fixpoint vec_entry (dv : nat -> bool) (x : arr R) (k : nat) (l : list (nat * R)) (out : arr R)
  : outcome (arr R) :=
  match l with
  | [] => Ok out
  | e :: t =>
      o <- (if dv k then xv <- get x (fst e) ;; vadd out k (xv * snd e)%R
            else xv <- get x k ;; vadd out k xv) ;;
      vec_entry dv x k t o
  end.
Fixpoint vec_entries (dv : nat -> bool) (x : arr R) (m : fmap) (out : arr R) : outcome (arr R) :=
  match m with
  | [] => Ok out
  | (k, l) :: t => o <- vec_entry dv x k l out ;; vec_entries dv x t o
  end.
Definition filter_vector (m : fmap) (dv : nat -> bool) (x out : arr R) : outcome (arr R) :=
  assert_ (len x =? length m) (assert_ (len out =? length m)
    (vec_entries dv x m (fill (len out) 0%R))).

(** filter_base.cpp L100-136: overload with the non-zero inputs only.  The std::map argument is not
    const: [nonzero_input[map_it->first]] inserts a zero at a missing key.  [serial] is
    output.type() == SERIAL. *)
Definition nzmap : Type := nat -> option R.
Definition nzget (z : nzmap) (k : nat) : R := match z k with Some v => v | None => 0%R end.
Definition nzins (z : nzmap) (k : nat) : nzmap :=
  match z k with Some _ => z | None => upd z k (Some 0%R) end.
Fixpoint nz_entry (dv : nat -> bool) (serial : bool) (lo hi : nat) (k : nat) (l : list (nat * R))
  (s : nzmap * arr R) : outcome (nzmap * arr R) :=
  match l with
  | [] => Ok s
  | e :: t =>
      let z := fst s in
      o <- (if (match z (fst e) with Some _ => true | None => false end) &&
               (serial || ((lo <=? k) && (k <? hi))) then
              if dv k then o <- vadd (snd s) k (nzget z (fst e) * snd e)%R ;; Ok (z, o)
              else o <- set (snd s) k (nzget z k) ;; Ok (nzins z k, o)
            else Ok s) ;;
      nz_entry dv serial lo hi k t o
  end.
Fixpoint nz_entries (dv : nat -> bool) (serial : bool) (lo hi : nat) (m : fmap)
  (s : nzmap * arr R) : outcome (nzmap * arr R) :=
  match m with
  | [] => Ok s
  | (k, l) :: t => o <- nz_entry dv serial lo hi k l s ;; nz_entries dv serial lo hi t o
  end.
Definition filter_nonzero (m : fmap) (dv : nat -> bool) (serial : bool) (lo hi : nat) (z : nzmap)
  (out : arr R) : outcome (nzmap * arr R) :=
  assert_ (len out =? length m) (nz_entries dv serial lo hi m (z, fill (len out) 0%R)).

(** filter_base.cpp L171-196 (if_elem_in_domain_of_influence). *)
Definition in_influence (r fe : R) (elem : list pt) (nd : pt) : bool :=
  let d := fold_left (fun d p => if rltb (dist p nd) d then dist p nd else d) elem 1e12%R in
  negb (rltb (r + fe)%R d).
