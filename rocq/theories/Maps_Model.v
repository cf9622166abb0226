(** Model of the device containers [BlockedBinaryTree], [LookupTable],
    [NDIndex] and [NDLocalArray]
    (/repo/include/neso_particles/containers/). *)
From Coq Require Import List Arith ZArith Bool.
Import ListNotations.
From Verif Require Import Base.

(* ------------------------------------------------------------------ *)
(** * BlockedBinaryTree *)
Section Tree.
Context {V : Type}.
Variable W : Z.                    (** WIDTH, blocked_binary_tree.hpp L11, L20 *)

(** A node in device memory, blocked_binary_tree.hpp L20-37.  A pointer is an
    index into the heap (the list of all nodes allocated so far), [None] is
    nullptr. *)
Record node := mk_node {
  node_key : Z;
  lhs : option nat;
  rhs : option nat;
  ex : list bool;                  (** [exists] *)
  data : list V }.

(** reset, blocked_binary_tree.hpp L41-47. *)
Definition reset (n : node) : node :=
  mk_node (node_key n) None None (map (fun _ => false) (ex n)) (data n).

(** get_node_key, blocked_binary_tree.hpp L57-65.  [Z.quot] is the division of
    C++.  INT overflow of the negation is not modelled. *)
Definition get_node_key (key : Z) : Z :=
  if (key <? 0)%Z then (- ((Z.quot (- key - 1) W) + 1))%Z else Z.quot key W.

(** get_leaf_key, blocked_binary_tree.hpp L75-82. *)
Definition get_leaf_key (key : Z) : Z :=
  if (key <? 0)%Z then (W - 1 - Z.rem (- key - 1) W)%Z else Z.rem key W.

(** An array index of type INT: negative is outside the allocation. *)
Definition idx (i : Z) : option nat := if (i <? 0)%Z then None else Some (Z.to_nat i).

(** is_node, blocked_binary_tree.hpp L90-92. *)
Definition is_node (n : node) (k : Z) : bool := (k =? node_key n)%Z.

(** next, blocked_binary_tree.hpp L102-111; [this] is the address of [n]. *)
Definition next (n : node) (this : nat) (k : Z) : option nat :=
  if (k <? node_key n)%Z then lhs n
  else if (node_key n <? k)%Z then rhs n
  else Some this.

(** The loop of get_location, blocked_binary_tree.hpp L131-139, with the
    dereference of a pointer outside the heap, and running for more than [fuel]
    iterations, as failures.  [Some (Some i)]: node found at address [i];
    [Some None]: not found.  L133 (the test of the first node before the loop)
    only skips the loop body, which would do the same test first. *)
Fixpoint search (fuel : nat) (h : list node) (p : option nat) (k : Z) : option (option nat) :=
  match fuel with
  | 0 => None
  | S f =>
      match p with
      | None => Some None
      | Some i =>
          n <- rd h i ;;
          if is_node n k then Some (Some i) else search f h (next n i k) k
      end
  end.

(** get_location, blocked_binary_tree.hpp L126-148: the node and the leaf.
    The fuel is the number of allocated nodes plus one: a longer path would
    visit a node twice, that is, the loop would not terminate. *)
Definition get_location (h : list node) (p : option nat) (key : Z) : option (option (nat * nat)) :=
  r <- search (S (length h)) h p (get_node_key key) ;;
  match r with
  | Some i => l <- idx (get_leaf_key key) ;; Some (Some (i, l))
  | None => Some None
  end.

(** get, blocked_binary_tree.hpp L156-167 (the version L176-187 that returns a
    pointer finds the same element). *)
Definition get (h : list node) (p : option nat) (key : Z) : option (option V) :=
  r <- get_location h p key ;;
  match r with
  | Some (i, l) =>
      n <- rd h i ;;
      e <- rd (ex n) l ;;
      if e then v <- rd (data n) l ;; Some (Some v) else Some None
  | None => Some None
  end.

(** exists[leaf] = true; data[leaf] = value. *)
Definition set_leaf (n : node) (l : nat) (v : V) : option node :=
  e' <- upd (ex n) l true ;;
  d' <- upd (data n) l v ;;
  Some (mk_node (node_key n) (lhs n) (rhs n) e' d').

(** set, blocked_binary_tree.hpp L199-210.  When the node is not in the tree
    nothing is stored and false is returned. *)
Definition set (h : list node) (p : option nat) (key : Z) (v : V) : option (list node * bool) :=
  r <- get_location h p key ;;
  match r with
  | Some (i, l) =>
      n <- rd h i ;;
      n' <- set_leaf n l v ;;
      h' <- upd h i n' ;;
      Some (h', true)
  | None => Some (h, false)
  end.

(** The loop of add_node, blocked_binary_tree.hpp L221-229: the last node on
    the path for key [k] that starts at address [i]. *)
Fixpoint last_node (fuel : nat) (h : list node) (i : nat) (k : Z) : option nat :=
  match fuel with
  | 0 => None
  | S f =>
      n <- rd h i ;;
      match next n i k with
      | None => Some i
      | Some j => last_node f h j k
      end
  end.

(** add_node, blocked_binary_tree.hpp L218-237: [this] is the address of the
    root, [new] that of the new node. *)
Definition add_node (h : list node) (this new : nat) : option (list node) :=
  nn <- rd h new ;;
  c <- last_node (S (length h)) h this (node_key nn) ;;
  n <- rd h c ;;
  if (node_key nn <? node_key n)%Z
  then upd h c (mk_node (node_key n) (Some new) (rhs n) (ex n) (data n))
  else upd h c (mk_node (node_key n) (lhs n) (Some new) (ex n) (data n)).

(** The tree, blocked_binary_tree.hpp L244-254: the std::map from node keys to
    nodes, the root and the device memory that holds the nodes. *)
Record tree := mk_tree { nodes : list (Z * nat); root : option nat; heap : list node }.

(** The constructor, blocked_binary_tree.hpp L284-293. *)
Definition new_tree : tree := mk_tree [] None [].

(** The content of memory that was just allocated. *)
Variable fresh_node : nat -> node.

(** nodes.count(key) *)
Definition count_node (t : tree) (k : Z) : bool := existsb (fun e => (fst e =? k)%Z) (nodes t).

(** add, blocked_binary_tree.hpp L301-349. *)
Definition add (t : tree) (key : Z) (v : V) : option tree :=
  let nk := get_node_key key in
  lk <- idx (get_leaf_key key) ;;
  if count_node t nk then
    r <- set (heap t) (root t) key v ;;
    Some (mk_tree (nodes t) (root t) (fst r))
  else
    let new := length (heap t) in
    let add_to_tree := match root t with None => false | Some _ => true end in
    let k_root := match root t with None => new | Some r => r end in
    let n0 := reset (fresh_node new) in
    n1 <- set_leaf (mk_node nk (lhs n0) (rhs n0) (ex n0) (data n0)) lk v ;;
    let h1 := heap t ++ [n1] in
    h2 <- (if add_to_tree then add_node h1 k_root new else Some h1) ;;
    Some (mk_tree ((nk, new) :: nodes t) (Some k_root) h2).

(** host_get, blocked_binary_tree.hpp L358-382. *)
Definition tree_host_get (t : tree) (key : Z) : option (option V) :=
  match root t with
  | None => Some None
  | Some r => get (heap t) (Some r) key
  end.
End Tree.
Arguments node V : clear implicits.
Arguments tree V : clear implicits.

(* ------------------------------------------------------------------ *)
(** * LookupTable *)
Section Table.
Context {V : Type}.

(** lookup_table.hpp L55-67 (the node on the device, L17-21, holds the same
    size and pointers). *)
Record table := mk_table { size : Z; entry_exists : list Z; entries : list V }.

(** Constructor, lookup_table.hpp L76-93; [junk] is the content of the new
    allocation of the entries. *)
Definition new_table (n : nat) (junk : nat -> V) : table :=
  mk_table (Z.of_nat n) (repeat 0%Z n) (map junk (seq 0 n)).

(** The node's get, lookup_table.hpp L28-36, L45-52. *)
Definition table_get (t : table) (key : Z) : option (option V) :=
  if ((-1 <? key) && (key <? size t))%Z%bool then
    e <- rd (entry_exists t) (Z.to_nat key) ;;
    if (0 <? e)%Z then v <- rd (entries t) (Z.to_nat key) ;; Some (Some v)
    else Some None
  else Some None.

(** add, lookup_table.hpp L100-109.  The two copies may complete in any order:
    they write different buffers. *)
Definition table_add (t : table) (key : Z) (v : V) : option table :=
  _ <- assert ((-1 <? key) && (key <? size t))%Z%bool ;;
  e' <- upd (entry_exists t) (Z.to_nat key) 1%Z ;;
  d' <- upd (entries t) (Z.to_nat key) v ;;
  Some (mk_table (size t) e' d').

(** host_get, lookup_table.hpp L118-135. *)
Definition table_host_get (t : table) (key : Z) : option (option V) :=
  if negb ((-1 <? key) && (key <? size t))%Z%bool then Some None
  else
    e <- rd (entry_exists t) (Z.to_nat key) ;;
    if (e =? 0)%Z then Some None
    else v <- rd (entries t) (Z.to_nat key) ;; Some (Some v).
End Table.
Arguments table V : clear implicits.

(* ------------------------------------------------------------------ *)
(** * NDIndex and NDLocalArray *)

(** linearise_inner, nd_index.hpp L15-28: one step per dimension.  The number
    of arguments is checked at compile time (L41): [None]. *)
Fixpoint linearise_inner (index : Z) (shape args : list Z) : option Z :=
  match shape, args with
  | [], [] => Some index
  | s :: shape', a :: args' => linearise_inner (index * s + a)%Z shape' args'
  | _, _ => None
  end.

(** get_linear_index, nd_index.hpp L40-45. *)
Definition get_linear_index (shape args : list Z) : option Z := linearise_inner 0 shape args.

(** size, nd_index.hpp L50-56.  [shape[0]] does not exist for N = 0. *)
Definition nd_size (shape : list Z) : option Z :=
  match shape with
  | [] => None
  | s :: l => Some (fold_left Z.mul l s)
  end.

Section Array.
Context {T : Type}.
(** nd_local_array.hpp L246-277. *)
Record nd_array := mk_nd { shape : list Z; nd_data : list T }.

(** fill, nd_local_array.hpp L301-306. *)
Definition nd_fill (a : nd_array) (v : T) : nd_array :=
  mk_nd (shape a) (map (fun _ => v) (nd_data a)).

(** Constructor, nd_local_array.hpp L286-294; [zero] is [T()].  A negative size
    is not an allocation. *)
Definition new_nd (shp : list Z) (zero : T) (junk : nat -> T) : option nd_array :=
  s <- nd_size shp ;;
  n <- (if (s <? 0)%Z then None else Some (Z.to_nat s)) ;;
  Some (nd_fill (mk_nd shp (map junk (seq 0 n))) zero).

(** set, nd_local_array.hpp L314-335. *)
Definition nd_set (a : nd_array) (d : list T) : option nd_array :=
  _ <- assert (length d =? length (nd_data a)) ;;
  Some (mk_nd (shape a) d).

(** get, nd_local_array.hpp L343-375. *)
Definition nd_get (a : nd_array) : list T := nd_data a.

(** The address of an element, nd_local_array.hpp L32, L45, L63-64. *)
Definition nd_address (a : nd_array) (ix : list Z) : option nat :=
  i <- get_linear_index (shape a) ix ;;
  if (i <? 0)%Z then None else Some (Z.to_nat i).

(** Read and Write access in a kernel, nd_local_array.hpp L31-33, L44-46. *)
Definition nd_at (a : nd_array) (ix : list Z) : option T :=
  i <- nd_address a ix ;; rd (nd_data a) i.
Definition nd_write (a : nd_array) (ix : list Z) (v : T) : option nd_array :=
  i <- nd_address a ix ;;
  d <- upd (nd_data a) i v ;;
  Some (mk_nd (shape a) d).

(** Add access in a kernel, nd_local_array.hpp L57-68: an atomic fetch_add;
    [plus] is the addition of [T].  Returns the previous value. *)
Variable plus : T -> T -> T.
Definition nd_fetch_add (a : nd_array) (ix : list Z) (v : T) : option (nd_array * T) :=
  i <- nd_address a ix ;;
  old <- rd (nd_data a) i ;;
  d <- upd (nd_data a) i (plus old v) ;;
  Some (mk_nd (shape a) d, old).

(** A kernel whose work items add contributions, in the order in which the
    atomic operations take effect. *)
Definition nd_add_all (a : nd_array) (cs : list (list Z * T)) : option nd_array :=
  foldM (fun a c => r <- nd_fetch_add a (fst c) (snd c) ;; Some (fst r)) a cs.
End Array.
Arguments nd_array T : clear implicits.
