(** Union of sets over all ranks.
    include/neso_particles/communication/communication_utility.hpp L116-299; include/neso_particles/typedefs.hpp
    L214-219, L477-479. *)
From Coq Require Import List Arith ZArith Bool.
Import ListNotations.
From Verif Require Import Base.
Local Open Scope nat_scope.

(** std::set<T>: the elements in ascending order. *)
Fixpoint insert (x : Z) (s : list Z) : list Z :=
  match s with
  | [] => [x]
  | y :: t => if (x <? y)%Z then x :: s else if (x =? y)%Z then s else y :: insert x t
  end.
Definition insert_all (v s : list Z) : list Z := fold_left (fun s x => insert x s) v s.
(** communication_utility.hpp L161 [for (int ix : recv_vector)]: the elements are converted to int. *)
Definition to_int (x : Z) : Z := ((x + 2 ^ 31) mod 2 ^ 32 - 2 ^ 31)%Z.

(** What a receiver does with the set: L245-248 and L258-261 insert it into the working set,
    L273 replaces the working set. *)
Inductive mode := Merge | Replace.
Definition absorb (m : mode) (work v : list Z) : list Z :=
  match m with
  | Merge => insert_all (insert_all (map to_int v) []) work
  | Replace => insert_all (map to_int v) []
  end.

(** The calls of a rank: L124-141 [set_send], of which [SendData] is what is left after the count has been
    sent; L150-167 [set_recv], of which [RecvData] is what is left after the count has been received. *)
Inductive act :=
| SendSet (dst : nat)
| SendData (dst : nat) (v : list Z)
| RecvSet (src : nat) (m : mode)
| RecvData (src n : nat) (m : mode).
Inductive msg := MCount (n : nat) | MData (v : list Z).

(** A rank: its working set, the calls still to do, and the rank to which it is sending if its MPI_Send has
    not returned. *)
Record proc := mk_proc { work : list Z; todo : list act; waits : option nat }.
(** The ranks and, for sender and receiver, the messages under way (MPI keeps their order). *)
Record sys := mk_sys { procs : nat -> proc; net : nat -> nat -> list msg }.
Definition set_proc (f : nat -> proc) (r : nat) (p : proc) : nat -> proc := fun i => if i =? r then p else f i.
Definition set_net (f : nat -> nat -> list msg) (s d : nat) (q : list msg) : nat -> nat -> list msg := fun i j => if (i =? s) && (j =? d) then q else f i j.
(** An MPI_Send that waits returns at the latest when its message has been received. *)
Definition unblock (f : nat -> proc) (s d : nat) (q : list msg) : nat -> proc :=
  match q, waits (f s) with
  | [], Some d' => if d' =? d then set_proc f s (mk_proc (work (f s)) (todo (f s)) None) else f
  | _, _ => f
  end.

(** One step of the program: a call starts to send, or completes to receive.  A message of the other type, or with another
    number of elements than announced, is never received (MPI would abort). *)
Inductive call : sys -> sys -> Prop :=
| call_send_count : forall c r d rest, todo (procs c r) = SendSet d :: rest -> waits (procs c r) = None ->
    call c (mk_sys (set_proc (procs c) r (mk_proc (work (procs c r)) (match work (procs c r) with [] => rest | v => SendData d v :: rest end) (Some d)))
                   (set_net (net c) r d (net c r d ++ [MCount (length (work (procs c r)))])))
| call_send_data : forall c r d v rest, todo (procs c r) = SendData d v :: rest -> waits (procs c r) = None ->
    call c (mk_sys (set_proc (procs c) r (mk_proc (work (procs c r)) rest (Some d))) (set_net (net c) r d (net c r d ++ [MData v])))
| call_recv_count : forall c r s m rest n q, todo (procs c r) = RecvSet s m :: rest -> waits (procs c r) = None -> net c s r = MCount n :: q ->
    call c (mk_sys (unblock (set_proc (procs c) r (match n with
                                                   | 0 => mk_proc (absorb m (work (procs c r)) []) rest None
                                                   | _ => mk_proc (work (procs c r)) (RecvData s n m :: rest) None
                                                   end)) s r q) (set_net (net c) s r q))
| call_recv_data : forall c r s n m rest v q, todo (procs c r) = RecvData s n m :: rest -> waits (procs c r) = None -> net c s r = MData v :: q -> length v = n ->
    call c (mk_sys (unblock (set_proc (procs c) r (mk_proc (absorb m (work (procs c r)) v) rest None)) s r q) (set_net (net c) s r q)).
(** The MPI library may also let an MPI_Send return earlier, after buffering the message; it need not. *)
Inductive buffered : sys -> sys -> Prop :=
| buffered_send : forall c r d, waits (procs c r) = Some d ->
    buffered c (mk_sys (set_proc (procs c) r (mk_proc (work (procs c r)) (todo (procs c r)) None)) (net c)).

(** typedefs.hpp L477-479. *)
Definition is_power_of_two (n : nat) : bool := if 0 <? n then Nat.land n (n - 1) =? 0 else false.
(** typedefs.hpp L214-219; the logarithm in double precision is taken to be exact for
    numbers of ranks. *)
Definition get_prev_power_of_two (n : nat) : nat := Nat.max (2 ^ Nat.log2 n) 1.

(** L255 [for (int s = reduction_size / 2; s > 0; s >>= 1)]: the values of s. *)
Fixpoint halvings (fuel s : nat) : list nat :=
  match fuel with
  | 0 => []
  | S f => if s =? 0 then [] else s :: halvings f (s / 2)
  end.
(** L256-266, one round. *)
Definition round (rank s : nat) : list act :=
  if rank <? s then [RecvSet (rank + s) Merge]
  else if (s <=? rank) && (rank <? 2 * s) then [SendSet (rank - s)] else [].
Definition reduction_size (size : nat) : nat := if is_power_of_two size then size else get_prev_power_of_two size.
(** L221-282 [set_reduce_union]: the calls of a rank. *)
Definition reduce_calls (size root rank : nat) : list act :=
  if size =? 1 then [] else
    let red := reduction_size size in
    let num_remainder_ranks := size - red in
    (if is_power_of_two size then []
     else if rank <? num_remainder_ranks then [RecvSet (red + rank) Merge]
     else if red <=? rank then [SendSet (rank - red)] else []) ++
    flat_map (round rank) (halvings (red / 2) (red / 2)) ++
    (if root =? 0 then []
     else if rank =? 0 then [SendSet root]
     else if rank =? root then [RecvSet 0 Replace] else []).
(** The call begins: L229-232 copy the input. *)
Definition reduce_start (size root : nat) (inputs : nat -> list Z) : sys :=
  mk_sys (fun r => if r <? size then mk_proc (insert_all (inputs r) []) (reduce_calls size root r) None else mk_proc [] [] None) (fun _ _ => []).
(** L277-281; with one rank L233-235 returns the working set on that rank. *)
Definition reduce_return (size root rank : nat) (c : sys) : list Z :=
  if size =? 1 then work (procs c rank) else if rank =? root then work (procs c rank) else [].
(** L181-206 [set_bcast], with MPI_Bcast handing the size and the elements of the root to every rank. *)
Definition set_bcast (root_set : list Z) : list Z := insert_all root_set [].
(** L295-299 [set_all_reduce_union] *)
Definition all_reduce_return (size : nat) (c : sys) (rank : nat) : list Z := set_bcast (reduce_return size 0 0 c).
