(** Finding the ranks that will send: CommunicationEdgesCounter.
    src/communication/communication_edges_counter.cpp.  The windows are taken to be in the unified memory model of MPI. *)
From Coq Require Import List Arith ZArith Bool.
Import ListNotations.
From Verif Require Import Base.
Local Open Scope nat_scope.

Definition setf {A} (f : nat -> A) (r : nat) (v : A) : nat -> A := fun i => if i =? r then v else f i.
Definition setf2 {A} (f : nat -> nat -> A) (s d : nat) (v : A) : nat -> nat -> A := fun i j => if (i =? s) && (j =? d) then v else f i j.

(** A call of get_remote_ranks is given by the pairs (rank, integer) of its first two arguments; the result is the pairs of
    the last two.  Where a rank is in the call (L100-112): outside; in L18 (after [reset] has entered the first
    barrier); in the loop L22-27, with the ranks still to do; in L33 (the second barrier has been entered, L29); in exchange_send_recv_counts (L37-72), with
    the number of receives posted, the messages not yet sent and the messages received so far. *)
Inductive place :=
| Outside
| FirstWait
| Counting (rem : list nat)
| SecondWait
| Exchange (n : nat) (to_send got : list (nat * Z)).
(** A rank: the integer in its window; the number of barriers it has entered; its place; the arguments of the call it is in; those of
    later calls; the results of earlier calls. *)
Record proc := mk_proc { win : nat; bars : nat; at_ : place; now : list (nat * Z); calls : list (list (nat * Z)); results : list (list (nat * Z)) }.
Record sys := mk_sys { procs : nat -> proc; net : nat -> nat -> list Z }.

(** MPI_Wait on the barrier a rank entered last: every rank has entered as many. *)
Definition barrier_done (size : nat) (c : sys) (r : nat) : Prop := forall i, i < size -> bars (procs c r) <= bars (procs c i).

Inductive call (size : nat) : sys -> sys -> Prop :=
| call_reset : forall c r p a rest, r < size -> procs c r = p -> at_ p = Outside -> calls p = a :: rest ->        (* L12-15 *)
    call size c (mk_sys (setf (procs c) r (mk_proc 0 (bars p + 1) FirstWait a rest (results p))) (net c))
| call_first_wait : forall c r p, r < size -> procs c r = p -> at_ p = FirstWait -> barrier_done size c r ->        (* L18 *)
    call size c (mk_sys (setf (procs c) r (mk_proc (win p) (bars p) (Counting (map fst (now p))) (now p) (calls p) (results p))) (net c))
| call_count : forall c r p d rem, r < size -> procs c r = p -> at_ p = Counting (d :: rem) ->        (* L22-27: MPI_Get_accumulate is atomic *)
    let f := setf (procs c) r (mk_proc (win p) (bars p) (Counting rem) (now p) (calls p) (results p)) in let t := f d in
    call size c (mk_sys (setf f d (mk_proc (win t + 1) (bars t) (at_ t) (now t) (calls t) (results t))) (net c))
| call_enter : forall c r p, r < size -> procs c r = p -> at_ p = Counting [] ->        (* L29 *)
    call size c (mk_sys (setf (procs c) r (mk_proc (win p) (bars p + 1) SecondWait (now p) (calls p) (results p))) (net c))
| call_second_wait : forall c r p, r < size -> procs c r = p -> at_ p = SecondWait -> barrier_done size c r ->        (* L33-34, L47-51 *)
    call size c (mk_sys (setf (procs c) r (mk_proc (win p) (bars p) (Exchange (win p) (now p) []) (now p) (calls p) (results p))) (net c))
| call_send : forall c r p n d x ts got, r < size -> procs c r = p -> at_ p = Exchange n ((d, x) :: ts) got ->        (* L53-57 *)
    call size c (mk_sys (setf (procs c) r (mk_proc (win p) (bars p) (Exchange n ts got) (now p) (calls p) (results p))) (setf2 (net c) r d (net c r d ++ [x])))
| call_recv : forall c r p n ts got s x q, r < size -> s < size -> procs c r = p -> at_ p = Exchange n ts got -> length got < n -> net c s r = x :: q ->
    (* a message arrives for one of the receives of L47-51 from any source; messages of one sender keep their order; L61-68 note the source *)
    call size c (mk_sys (setf (procs c) r (mk_proc (win p) (bars p) (Exchange n ts (got ++ [(s, x)])) (now p) (calls p) (results p))) (setf2 (net c) s r q))
| call_finish : forall c r p n got, r < size -> procs c r = p -> at_ p = Exchange n [] got -> length got = n -> (forall d, net c r d = []) ->        (* L59, L70-71 *)
    call size c (mk_sys (setf (procs c) r (mk_proc (win p) (bars p) Outside (now p) (calls p) (results p ++ [got]))) (net c)).
(** The MPI library may complete sends that have not been received, by buffering them. *)
Inductive buffered (size : nat) : sys -> sys -> Prop :=
| buffered_finish : forall c r p n got, r < size -> procs c r = p -> at_ p = Exchange n [] got -> length got = n ->
    buffered size c (mk_sys (setf (procs c) r (mk_proc (win p) (bars p) Outside (now p) (calls p) (results p ++ [got]))) (net c)).

(** The ranks before a history of calls; the windows hold anything. *)
Definition edges_start (junk : nat -> nat) (args : nat -> list (list (nat * Z))) : sys :=
  mk_sys (fun r => mk_proc (junk r) 0 Outside [] (args r) []) (fun _ _ => []).
