(** Model of ResourceStack and ResourceStackMap
    (/repo/include/neso_particles/containers/resource_stack.hpp,
    resource_stack_map.hpp).  Objects are numbered in the order of their
    construction. *)
From Coq Require Import List Arith Bool.
Import ListNotations.
From Verif Require Import Base.

(** resource_stack.hpp L22-23, L38.  The head of [stack] is the top. *)
Record pool := mk_pool { num_managed_objects : nat; stack : list nat }.

(** The shared pointers of the calling code: handle [h] is null ([None]) or
    refers to an object.  [log] records the calls of the interface and the
    objects handed out; it is not part of the code. *)
Inductive event :=
| Got (key o : nat)        (** get returned object [o] *)
| Put (key o : nat)        (** object [o] was restored (cleaned and pushed) *)
| Freed (o : nat).         (** the interface's free was called for [o] *)
Record state := mk_state {
  pools : list (nat * pool);       (** map_to_resources, resource_stack_map.hpp L17-18 *)
  next : nat;                      (** number of objects constructed so far *)
  handles : list (option nat);
  log : list event }.

(** exists, resource_stack_map.hpp L40-42, L80-82, and at. *)
Fixpoint find (ps : list (nat * pool)) (key : nat) : option pool :=
  match ps with
  | [] => None
  | (k, p) :: ps' => if k =? key then Some p else find ps' key
  end.
Fixpoint replace (ps : list (nat * pool)) (key : nat) (p : pool) : list (nat * pool) :=
  match ps with
  | [] => [(key, p)]
  | (k, q) :: ps' => if k =? key then (k, p) :: ps' else (k, q) :: replace ps' key p
  end.

(** get, resource_stack.hpp L66-78: the object, the pool and the number of
    objects constructed.  The interface is assumed to construct a new object
    (L69 checks that it is not null). *)
Definition get (p : pool) (next : nat) : nat * pool * nat :=
  match stack p with
  | [] => (next, mk_pool (num_managed_objects p + 1) [], next + 1)
  | o :: st => (o, mk_pool (num_managed_objects p) st, next)
  end.

(** ptr.use_count() without the local variable of restore: the handles that
    refer to the object, and the entries of stacks. *)
Definition refers (o : nat) (h : option nat) : bool := match h with Some x => x =? o | None => false end.
Definition uses (s : state) (o : nat) : nat :=
  length (filter (refers o) (handles s)) +
  length (filter (Nat.eqb o) (flat_map (fun kp => stack (snd kp)) (pools s))).

(** get_resource, resource_stack_map.hpp L165-170 (with get_resource_stack,
    L144-152): a missing stack is created. *)
Definition get_resource (s : state) (key : nat) : state :=
  let p := match find (pools s) key with Some p => p | None => mk_pool 0 [] end in
  let '(o, p', n') := get p (next s) in
  mk_state (replace (pools s) key p') n' (handles s ++ [Some o]) (log s ++ [Got key o]).

(** restore_resource, resource_stack_map.hpp L181-186, and restore,
    resource_stack.hpp L88-102: the handle is reset before the use count is
    tested. *)
Definition restore_resource (s : state) (key h : nat) : option state :=
  p <- find (pools s) key ;;
  ptr <- rd (handles s) h ;;
  o <- ptr ;;
  hs <- upd (handles s) h None ;;
  let s1 := mk_state (pools s) (next s) hs (log s) in
  _ <- assert (1 + uses s1 o =? 1) ;;
  Some (mk_state (replace (pools s) key (mk_pool (num_managed_objects p) (o :: stack p)))
          (next s) hs (log s ++ [Put key o])).

(** ResourceStack::free, resource_stack.hpp L108-118. *)
Definition free_pool (p : pool) : option (pool * list nat) :=
  _ <- assert (length (stack p) =? num_managed_objects p) ;;
  Some (mk_pool 0 [], stack p).

(** ResourceStackMap::free, resource_stack_map.hpp L27-32. *)
Definition free_all (s : state) : option state :=
  fs <- mapM (fun kp => free_pool (snd kp)) (pools s) ;;
  Some (mk_state [] (next s) (handles s) (log s ++ map Freed (flat_map snd fs))).

(** free of the stack of one key. *)
Definition free_one (s : state) (key : nat) : option state :=
  p <- find (pools s) key ;;
  r <- free_pool p ;;
  Some (mk_state (replace (pools s) key (fst r)) (next s) (handles s) (log s ++ map Freed (snd r))).

(** What the calling code can do: the calls above; copy a shared pointer; reset
    one without restoring it. *)
Inductive call := Get (key : nat) | Copy (h : nat) | Drop (h : nat) | Restore (key h : nat) | FreeAll | FreeOne (key : nat).

Definition step (s : state) (c : call) : option state :=
  match c with
  | Get key => Some (get_resource s key)
  | Copy h => p <- rd (handles s) h ;; Some (mk_state (pools s) (next s) (handles s ++ [p]) (log s))
  | Drop h => hs <- upd (handles s) h None ;; Some (mk_state (pools s) (next s) hs (log s))
  | Restore key h => restore_resource s key h
  | FreeAll => free_all s
  | FreeOne key => free_one s key
  end.

Definition init : state := mk_state [] 0 [] [].
Definition run (cs : list call) : option state := foldM step init cs.
