(** Model of the static condensation of cut elements
    (/repo/src/level_set/interface_dof_handler.cpp) and of the material patch around a node
    (/repo/src/level_set/material_patch.cpp). *)
From Coq Require Import List Arith Lia Bool Reals.
From Verif Require Import Base RBool.
Import ListNotations.
Open Scope nat_scope.

(** ** interface_dof_handler.cpp *)

(** What partition_local_elem_rows asks of the system and of the element: number of variables,
    whether variable 0 is LAGRANGE, whether the element is a QUAD4, its number of nodes and the
    level-set value at each of its nodes. *)
Record elem := mkElem { e_vars : nat; e_lagrange : bool; e_quad4 : bool; e_nodes : nat; e_phi : nat -> R }.

(** std::sort on dof ids *)
Fixpoint insert (x : nat) (l : list nat) : list nat :=
  match l with [] => [x] | y :: t => if x <=? y then x :: l else y :: insert x t end.
Definition sort (l : list nat) : list nat := fold_right insert [] l.

(** interface_dof_handler.cpp L166-181, one node: all its dofs go to one of the lists
    (material, void). *)
Definition push_node (e : elem) (s : list nat * list nat) (i : nat) : list nat * list nat :=
  let ds := map (fun j => j * e_nodes e + i) (seq 0 (e_vars e)) in
  if rltb (e_phi e i) 0 then (fst s, snd s ++ ds) else (fst s ++ ds, snd s).

(** interface_dof_handler.cpp L142-186.  The lists passed in are appended to. *)
Definition partition_local (e : elem) (m0 v0 : list nat) : outcome (list nat * list nat) :=
  assert_ (e_quad4 e) (assert_ (e_lagrange e)
  (let s := fold_left (push_node e) (seq 0 (e_nodes e)) (m0, v0) in
   Ok (sort (fst s), sort (snd s)))).

(** interface_dof_handler.cpp L191-213: local numbers replaced by global ones. *)
Fixpoint to_global (ids : arr nat) (l : list nat) : outcome (list nat) :=
  match l with
  | [] => Ok []
  | k :: t => g <- get ids k ;; r <- to_global ids t ;; Ok (g :: r)
  end.
Definition partition_global (e : elem) (ids : arr nat) (m0 v0 : list nat)
  : outcome (list nat * list nat) :=
  s <- partition_local e m0 v0 ;;
  m <- to_global ids (fst s) ;; v <- to_global ids (snd s) ;; Ok (m, v).

(** Eigen products and differences, with the size checks Eigen asserts. *)
Definition mmul (a b : mat R) : outcome (mat R) :=
  assert_ (cols a =? rows b)
    (Ok (mkMat (rows a) (cols b) (fun i j => sum (cols a) (fun k => ent a i k * ent b k j)%R))).
Definition mvec (a : mat R) (v : arr R) : outcome (arr R) :=
  assert_ (cols a =? len v) (Ok (mkArr (rows a) (fun i => sum (cols a) (fun k => ent a i k * cell v k)%R))).
Definition msub (a b : mat R) : outcome (mat R) :=
  assert_ ((rows a =? rows b) && (cols a =? cols b))
    (Ok (mkMat (rows a) (cols a) (fun i j => ent a i j - ent b i j)%R)).
Definition vsub (a b : arr R) : outcome (arr R) :=
  assert_ (len a =? len b) (Ok (mkArr (len a) (fun i => cell a i - cell b i)%R)).

(** L357-371 / L430-436: the block of [a] with the given rows and columns, copied entry by entry
    into a zero matrix. *)
Definition gather (rs cs : list nat) (a : mat R) : outcome (mat R) :=
  loop (length rs) (fun i m =>
    loop (length cs) (fun j m => x <- mget a (nth i rs 0) (nth j cs 0) ;; mset m i j x) m)
    (mfill (length rs) (length cs) 0%R).
(** L311-315, L438, L441-442: the same for a vector. *)
Definition gather_vec (rs : list nat) (v : arr R) : outcome (arr R) :=
  loop (length rs) (fun i w => x <- get v (nth i rs 0) ;; set w i x) (fill (length rs) 0%R).

(** Eigen::FullPivLU::solve, external: matrix, right-hand side, component of the solution. *)
Definition lu_solver : Type := mat R -> (nat -> R) -> nat -> R.

(** interface_dof_handler.cpp L461-483: the inverse, column by column. *)
Definition inverse (lu : lu_solver) (a : mat R) : outcome (mat R) :=
  assert_ (rows a =? cols a)
  (loop (rows a) (fun i m =>
     Ok (mkMat (rows m) (cols m)
           (fun k j => if j =? i then lu a (fun q => if q =? i then 1%R else 0%R) k else ent m k j)))
     (mfill (rows a) (rows a) 0%R)).

(** interface_dof_handler.cpp L325-376.  The lists are cleared first. *)
Record factored := mkFact { f_mat : list nat; f_void : list nat; f_uf : mat R; f_ff : mat R; f_uu : mat R }.
Definition factored_jacobian (lu : lu_solver) (e : elem) (jac : mat R) : outcome factored :=
  s <- partition_local e [] [] ;;
  uu <- gather (fst s) (fst s) jac ;;
  uf <- gather (fst s) (snd s) jac ;;
  fu <- gather (snd s) (fst s) jac ;;
  ff <- gather (snd s) (snd s) jac ;;
  ffi <- inverse lu ff ;;
  p <- mmul uf ffi ;; q <- mmul p fu ;; d <- msub uu q ;;
  Ok (mkFact (fst s) (snd s) uf ff d).

(** interface_dof_handler.cpp L275-320: (material dofs, factored Jacobian, factored residual). *)
Definition factored_residual_and_jacobian (lu : lu_solver) (e : elem) (jac : mat R) (res : arr R)
  : outcome (list nat * mat R * arr R) :=
  f <- factored_jacobian lu e jac ;;
  ru <- gather_vec (f_mat f) res ;;
  rf <- gather_vec (f_void f) res ;;
  ffi <- inverse lu (f_ff f) ;;
  p <- mmul (f_uf f) ffi ;; q <- mvec p rf ;; r <- vsub ru q ;;
  Ok (f_mat f, f_uu f, r).

(** interface_dof_handler.cpp L381-457, without the store: the updated element solution.  res, sol
    and dsol are RealMatrixX arguments to which the caller passes vectors. *)
Definition recover (lu : lu_solver) (e : elem) (res : arr R) (jac : mat R) (sol dsol : arr R)
  : outcome (arr R) :=
  s <- partition_local e [] [] ;;
  assert_ (0 <? length (fst s)) (assert_ (0 <? length (snd s))
  (fu <- gather (snd s) (fst s) jac ;;
   ff <- gather (snd s) (snd s) jac ;;
   rf <- gather_vec (snd s) res ;;
   du <- gather_vec (fst s) dsol ;;
   ffi <- inverse lu ff ;;
   t <- mvec fu du ;;
   b <- vsub (mkArr (len rf) (fun i => - cell rf i)%R) t ;;
   df <- mvec ffi b ;;
   loop (length (snd s)) (fun i w => x <- get df i ;; vadd w (nth i (snd s) 0) x) sol)).

(** interface_dof_handler.h L159: _elem_sol, the stored element solutions. *)
Definition store : Type := nat -> option (arr R).
Definition update_factored (lu : lu_solver) (st : store) (id : nat) (e : elem) (res : arr R)
  (jac : mat R) (sol dsol : arr R) : outcome (store * arr R) :=
  match st id with
  | None => Fault AssertFailed
  | Some _ => w <- recover lu e res jac sol dsol ;; Ok (upd st id (Some w), w)
  end.
(** interface_dof_handler.cpp L217-239. *)
Definition factored_solution (st : store) (id : nat) (e : elem) (sol : arr R) : outcome (arr R) :=
  match st id with
  | None => Fault AssertFailed
  | Some f =>
      s <- partition_local e [] [] ;;
      loop (length (snd s)) (fun i w => x <- get f (nth i (snd s) 0) ;; set w (nth i (snd s) 0) x) sol
  end.

(** level_set_nonlinear_implicit_assembly.cpp L458-478: the condensed quantities put back into
    element-sized ones; 1.e-6 on the diagonal of the void dofs, zero residual there. *)
Definition embed (n : nat) (rs : list nat) (uu : mat R) (ru : arr R) : outcome (mat R * arr R) :=
  v <- loop (length rs) (fun i v => x <- get ru i ;; set v (nth i rs 0) x) (fill n 0%R) ;;
  m <- loop (length rs) (fun i m =>
         loop (length rs) (fun j m => x <- mget uu i j ;; mset m (nth i rs 0) (nth j rs 0) x) m)
         (mkMat n n (fun i j => if i =? j then (/ 1000000)%R else 0%R)) ;;
  Ok (m, v).

(** ** material_patch.cpp *)

(** A 2D element for the patch: QUAD4/QUAD9 or not, its nodes, its centroid relative to nothing in
    particular (two coordinates are used). *)
Record pelem := mkPElem { p_quad : bool; p_nn : nat; p_node : nat -> nat; p_cent : R * R }.

(** std::map<Real, const Elem*> : insert or overwrite at a key, ordered. *)
Fixpoint ainsert (a : R) (e : nat) (m : list (R * nat)) : list (R * nat) :=
  match m with
  | [] => [(a, e)]
  | (b, f) :: t => if rltb a b then (a, e) :: m
                   else if rltb b a then (b, f) :: ainsert a e t else (b, e) :: t
  end.

Section Patch.
  Variable atan2 : R -> R -> R.       (** libm *)
  Variable el : nat -> pelem.         (** element by pointer *)
  Variable pos : nat -> R * R * R.    (** node coordinates *)
  Variable phi : nat -> R.            (** level set at a node, at the given time *)

  Definition dist_to (c n : nat) : R :=
    match pos n, pos c with
    | (a, b, d), (x, y, z) => sqrt ((a - x) * (a - x) + (b - y) * (b - y) + (d - z) * (d - z))%R
    end.

  (** material_patch.cpp L140-152 *)
  Fixpoint angle_map (c : nat) (es : list nat) (m : list (R * nat)) : outcome (list (R * nat)) :=
    match es with
    | [] => Ok m
    | e :: t =>
        assert_ (p_quad (el e))
        (let a := atan2 (snd (p_cent (el e)) - snd (fst (pos c)))%R
                        (fst (p_cent (el e)) - fst (fst (pos c)))%R in
         angle_map c t (ainsert a e m))
    end.
  (** L154-164: patch_elems has four entries. *)
  Definition fill_patch (m : list (R * nat)) : outcome (arr (option nat)) :=
    loop (length m) (fun i p => set p i (Some (snd (nth i m (0%R, 0))))) (fill 4 None).
  (** patch_elems[k]->node_ptr(j) *)
  Definition pnode (p : arr (option nat)) (k j : nat) : outcome nat :=
    o <- get p k ;; match o with None => Fault NullDeref | Some e => Ok (p_node (el e) j) end.
  (** L184-189 and alike: of two nodes the one closer to the centre, the second on a tie. *)
  Definition closer (c a b : nat) : nat := if rltb (dist_to c a) (dist_to c b) then a else b.

  (** L180-222 *)
  Definition periphery (c : nat) (p : arr (option nat)) : outcome (list nat) :=
    n0 <- pnode p 0 0 ;;
    a1 <- pnode p 0 1 ;; b1 <- pnode p 1 0 ;;
    n2 <- pnode p 1 1 ;;
    a3 <- pnode p 1 2 ;; b3 <- pnode p 2 1 ;;
    n4 <- pnode p 2 2 ;;
    a5 <- pnode p 2 3 ;; b5 <- pnode p 3 2 ;;
    n6 <- pnode p 3 3 ;;
    a7 <- pnode p 3 0 ;; b7 <- pnode p 0 3 ;;
    Ok [n0; closer c a1 b1; n2; closer c a3 b3; n4; closer c a5 b5; n6; closer c a7 b7].

  (** L236-246 *)
  Definition sign_changes (ns : list nat) : nat :=
    snd (fold_left (fun s i =>
           let v1 := fst s in
           let v2 := phi (nth ((i + 1) mod length ns) ns 0) in
           (v2, if (rltb v1 0 && rleb 0 v2) || (rleb 0 v1 && rltb v2 0) then S (snd s) else snd s))
         (seq 0 (length ns)) (phi (nth 0 ns 0), 0)).

  (** material_patch.cpp L100-262 *)
  Definition material_levels (c : nat) (nbrs : list nat) : outcome bool :=
    if length nbrs <? 4 then Ok false
    else
      m <- angle_map c nbrs [] ;; p <- fill_patch m ;; ns <- periphery c p ;;
      assert_ (length ns =? 8)
      (let k := sign_changes ns in
       assert_ (k mod 2 =? 0) (Ok (1 <? k / 2))).

  (** material_patch.cpp L37-88 on a fresh object: the elements to factor. *)
  Definition patch_init (c : nat) (nbrs : list nat) : outcome (list nat) :=
    assert_ (rleb (phi c) 0)
    (b <- material_levels c nbrs ;;
     Ok (if b then filter (fun e => existsb (fun i => rleb 0 (phi (p_node (el e) i)))
                                            (seq 0 (p_nn (el e)))) nbrs
         else [])).

  (** interface_dof_handler.cpp L74-105 (init): for each element with a boundary, the patches of
      its corner nodes with negative level set.  [nbr e c] is elem.find_point_neighbors(node);
      [boundary e] is if_elem_has_boundary(); [corners e] are its corner nodes
      (level_set_intersection.cpp L543-580 keeps those with a negative value). *)
  Fixpoint patch_all (nbr : nat -> nat -> list nat) (e : nat) (cs : list nat) : outcome (list nat) :=
    match cs with
    | [] => Ok []
    | c :: t => a <- patch_init c (nbr e c) ;; b <- patch_all nbr e t ;; Ok (a ++ b)
    end.
  Fixpoint to_factor (nbr : nat -> nat -> list nat) (boundary : nat -> bool)
    (corners : nat -> list nat) (es : list nat) : outcome (list nat) :=
    match es with
    | [] => Ok []
    | e :: t =>
        a <- (if boundary e
              then patch_all nbr e (filter (fun c => rltb (phi c) 0) (corners e)) else Ok []) ;;
        b <- to_factor nbr boundary corners t ;; Ok (a ++ b)
    end.
End Patch.
