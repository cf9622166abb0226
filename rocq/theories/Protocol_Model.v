(** Model of the MPI communication of GlobalMove and LocalMove
    (include/neso_particles/global_move_exchange.hpp, local_move.hpp): a transition
    system for any number of ranks that perform any sequence of global and local
    moves on one communicator.

    MPI is modelled by its guarantees: messages with the same source, destination
    and tag are matched in the order in which they were sent and receives in
    the order in which they were posted; MPI_ANY_SOURCE matches a message of any
    source; a barrier completes when all ranks have entered it; the accumulate
    operations on a window are atomic and complete at the unlock.  With [sync] a
    send completes only after the message was received, otherwise at any time.

    Simplifications: the (non-blocking) sends of one loop are one step; they go to
    different ranks, hence to different channels.  The order of the messages in
    a result is the order in which the counts arrived. *)
From Coq Require Import List Arith Bool.
Import ListNotations.

(** A message: number of particles, packed data. *)
Notation payload B := (nat * list B)%type.
(** The result of an operation on a rank: source, number of particles and, if
    data was received from that source, the data. *)
Notation result B := (list (nat * (nat * option (list B)))).

Section Protocol.
  Context {B : Type}.

  (** One collective operation: what every rank sends, as (destination, message).
      A local move has one message for every neighbour a rank can send to, and
      [srcs r] are the ranks that can send to rank [r] (h_recv_ranks). *)
  Inductive op :=
  | OpGlobal (outs : nat -> list (nat * payload B))
  | OpLocal (outs : nat -> list (nat * payload B)) (srcs : nat -> list nat).

  (** A message with tag 43: a number of particles (LocalMove) or particle data. *)
  Inductive wire43 := WCount (c : nat) | WData (d : list B).

  (** Where a rank is in an operation. *)
  Inductive phase :=
  | Start                                   (* before the operation *)
  | Bar1                                    (* waits for the first barrier *)
  | Acc (rest : list nat)                   (* accumulates on the windows of these ranks *)
  | Bar2                                    (* waits for the second barrier *)
  | Counts (nrecv : nat) (got : list (nat * nat))          (* receives counts, global move *)
  | LCounts (rem : list nat) (got : list (nat * nat))      (* receives counts from [rem], local move *)
  | Data (cnts : list (nat * nat)) (rem : list nat) (got : list (nat * list B))  (* receives data from [rem] *)
  | Fail.                                   (* a receive matched a message of the wrong kind *)

  Record state := mk_state {
    pc : nat -> nat;                        (* index of the current operation of each rank *)
    ph : nat -> phase;
    win : nat -> nat;                       (* recv_win_data[0] of each rank *)
    c42 : nat -> nat -> list nat;           (* messages in flight with tag 42: source, destination *)
    c43 : nat -> nat -> list wire43;        (* tag 43 *)
    res : nat -> list (result B)                (* results of the finished operations *)
  }.

  Definition fupd {A} (f : nat -> A) (r : nat) (a : A) : nat -> A := fun x => if x =? r then a else f x.
  Definition fupd2 {A} (f : nat -> nat -> A) (s r : nat) (a : A) : nat -> nat -> A :=
    fun x y => if (x =? s) && (y =? r) then a else f x y.

  (** The messages of [outs] for rank [d], and posting all of them from rank [r]. *)
  Definition msgs_for {A} (f : payload B -> A) (outs : list (nat * payload B)) (d : nat) : list A :=
    map (fun m => f (snd m)) (filter (fun m => fst m =? d) outs).
  Definition post {A} (c : nat -> nat -> list A) (r : nat) (f : payload B -> A) (outs : list (nat * payload B))
    : nat -> nat -> list A :=
    fun s d => if s =? r then c s d ++ msgs_for f outs d else c s d.

  Definition phn (p : phase) : nat :=
    match p with Start => 0 | Bar1 => 1 | Acc _ => 2 | Bar2 => 3 | Counts _ _ => 4 | LCounts _ _ => 4 | Data _ _ _ => 5 | Fail => 5 end.
  (** How far rank [s] is. *)
  Definition pos (st : state) (s : nat) : nat := 6 * pc st s + phn (ph st s).

  Definition lookup {A} (l : list (nat * A)) (s : nat) : option A :=
    option_map snd (find (fun e => fst e =? s) l).
  Definition to_result (cnts : list (nat * nat)) (got : list (nat * list B)) : result B :=
    map (fun e => (fst e, (snd e, lookup got (fst e)))) cnts.
  Definition nonempty_outs (outs : list (nat * payload B)) := filter (fun m => 0 <? fst (snd m)) outs.

  Context (n : nat) (ops : list op) (sync : bool).

  Inductive step : nat -> state -> state -> Prop :=
  (* global_move_exchange.hpp L76-83 npart_exchange_init: the count in the window is reset, the first barrier is entered *)
  | s_init st r outs : r < n -> nth_error ops (pc st r) = Some (OpGlobal outs) -> ph st r = Start ->
      step r st (mk_state (pc st) (fupd (ph st) r Bar1) (fupd (win st) r 0) (c42 st) (c43 st) (res st))
  (* L124 *)
  | s_bar1 st r outs : r < n -> nth_error ops (pc st r) = Some (OpGlobal outs) -> ph st r = Bar1 ->
      (forall s, s < n -> 6 * pc st r + 1 <= pos st s) ->
      step r st (mk_state (pc st) (fupd (ph st) r (Acc (map fst (outs r)))) (win st) (c42 st) (c43 st) (res st))
  (* L132-141 *)
  | s_acc st r d rest : r < n -> ph st r = Acc (d :: rest) ->
      step r st (mk_state (pc st) (fupd (ph st) r (Acc rest)) (fupd (win st) d (win st d + 1)) (c42 st) (c43 st) (res st))
  (* L145 *)
  | s_bar2_enter st r : r < n -> ph st r = Acc [] ->
      step r st (mk_state (pc st) (fupd (ph st) r Bar2) (win st) (c42 st) (c43 st) (res st))
  (* L161-186 *)
  | s_bar2 st r outs : r < n -> nth_error ops (pc st r) = Some (OpGlobal outs) -> ph st r = Bar2 ->
      (forall s, s < n -> 6 * pc st r + 3 <= pos st s) ->
      step r st (mk_state (pc st) (fupd (ph st) r (Counts (win st r) [])) (win st) (post (c42 st) r fst (outs r)) (c43 st) (res st))
  (* L174-179, L192: a receive with MPI_ANY_SOURCE *)
  | s_count st r s c t nrecv got : r < n -> s < n -> ph st r = Counts nrecv got -> length got < nrecv -> c42 st s r = c :: t ->
      step r st (mk_state (pc st) (fupd (ph st) r (Counts nrecv ((s, c) :: got))) (win st) (fupd2 (c42 st) s r t) (c43 st) (res st))
  (* L207, L239-256: the counts are complete, data is sent *)
  | s_counts_done st r outs nrecv got : r < n -> nth_error ops (pc st r) = Some (OpGlobal outs) ->
      ph st r = Counts nrecv got -> length got = nrecv ->
      (sync = true -> forall d, d < n -> c42 st r d = []) ->
      step r st (mk_state (pc st) (fupd (ph st) r (Data got (map fst got) [])) (win st) (c42 st)
                   (post (c43 st) r (fun m => WData (snd m)) (outs r)) (res st))
  (* L239-246, L269 and local_move.hpp L242-250, L270: a receive of data *)
  | s_data st r s w t cnts rem1 rem2 got : r < n -> ph st r = Data cnts (rem1 ++ s :: rem2) got -> c43 st s r = w :: t ->
      step r st (mk_state (pc st)
        (fupd (ph st) r (match w with WData d => Data cnts (rem1 ++ rem2) ((s, d) :: got) | WCount _ => Fail end))
        (win st) (c42 st) (fupd2 (c43 st) s r t) (res st))
  (* L282-283 and local_move.hpp L273-274: the data is complete, the sends complete *)
  | s_data_done st r cnts got : r < n -> ph st r = Data cnts [] got ->
      (sync = true -> forall d, d < n -> c43 st r d = []) ->
      step r st (mk_state (fupd (pc st) r (pc st r + 1)) (fupd (ph st) r Start) (win st) (c42 st) (c43 st)
                   (fupd (res st) r (res st r ++ [to_result cnts got])))
  (* local_move.hpp L199-213 *)
  | s_local st r outs srcs : r < n -> nth_error ops (pc st r) = Some (OpLocal outs srcs) -> ph st r = Start ->
      step r st (mk_state (pc st) (fupd (ph st) r (LCounts (srcs r) [])) (win st) (c42 st)
                   (post (c43 st) r (fun m => WCount (fst m)) (outs r)) (res st))
  (* L202-206, L218 *)
  | s_lcount st r s w t rem1 rem2 got : r < n -> ph st r = LCounts (rem1 ++ s :: rem2) got -> c43 st s r = w :: t ->
      step r st (mk_state (pc st)
        (fupd (ph st) r (match w with WCount c => LCounts (rem1 ++ rem2) ((s, c) :: got) | WData _ => Fail end))
        (win st) (c42 st) (fupd2 (c43 st) s r t) (res st))
  (* L215-219, L240-263 *)
  | s_lcounts_done st r outs srcs got : r < n -> nth_error ops (pc st r) = Some (OpLocal outs srcs) -> ph st r = LCounts [] got ->
      (sync = true -> forall d, d < n -> c43 st r d = []) ->
      step r st (mk_state (pc st) (fupd (ph st) r (Data got (map fst (filter (fun e => 0 <? snd e) got)) [])) (win st) (c42 st)
                   (post (c43 st) r (fun m => WData (snd m)) (nonempty_outs (outs r))) (res st)).

  (** At the beginning nothing is in flight; the windows hold anything. *)
  Definition init (w : nat -> nat) : state :=
    mk_state (fun _ => 0) (fun _ => Start) w (fun _ _ => []) (fun _ _ => []) (fun _ => []).

  (** Executions of [k] steps. *)
  Inductive run : state -> nat -> state -> Prop :=
  | run_nil st : run st 0 st
  | run_step st k st' st'' r : run st k st' -> step r st' st'' -> run st (S k) st''.

  Definition finished (st : state) : Prop := forall r, r < n -> pc st r = length ops.
End Protocol.

(** local_move.hpp L119-176, constructor of LocalMove: [sends s] are the ranks that
    rank [s] can send to.  All accumulates on the window of rank [r] happen
    between two barriers, in an order [acc] of the ranks that send to it; each
    fetches the previous value as the tag of its message.  The receive number
    [rankx] takes a message of any source with tag [rankx]; it is an error here if
    that is not one message. *)
Definition setup_tags (acc : list nat) : nat * list (nat * nat) :=
  fold_left (fun st s => (fst st + 1, snd st ++ [(s, fst st)])) acc (0, []).
Fixpoint setup_recv (tags : list (nat * nat)) (rankx : list nat) : option (list nat) :=
  match rankx with
  | [] => Some []
  | x :: t =>
      match filter (fun e => snd e =? x) tags, setup_recv tags t with
      | [e], Some l => Some (fst e :: l)
      | _, _ => None
      end
  end.
Definition local_setup (n : nat) (sends : nat -> list nat) (order : nat -> list nat -> list nat) (r : nat) : option (list nat) :=
  let acc := order r (filter (fun s => existsb (Nat.eqb r) (sends s)) (seq 0 n)) in
  let (num_remote_recv_ranks, tags) := setup_tags acc in
  setup_recv tags (seq 0 num_remote_recv_ranks).

Arguments op : clear implicits. Arguments phase : clear implicits. Arguments state : clear implicits.
Arguments wire43 : clear implicits.
