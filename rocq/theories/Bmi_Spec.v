(** What exchanging values of boundary facets is supposed to do. *)
From Coq Require Import List Arith ZArith Bool Permutation.
Import ListNotations.
From Verif Require Import Base Bmi_Model.

(** The ids in the pairs a rank passes. *)
Definition ids_of (l : list (nat * Z)) : list Z := map snd l.

(** [known r] after further pairs: what rank [r] has passed so far. *)
Definition extend_known (known ids : list (list Z)) : list (list Z) :=
  map (fun p => fst p ++ snd p) (combine known ids).

(** The pairs name the owner of the facet. *)
Definition pairs_ok (owner : Z -> nat) (own : list (list Z)) (l : list (nat * Z)) : Prop :=
  forall d g, In (d, g) l -> d = owner g /\ exists o, nth_error own d = Some o /\ In g o.

(** What MPI guarantees about the neighbours it reports: the ranks to which the rank wants
    to send, the ranks that want to send to it, and the same with the edges reversed; in
    any order. *)
Definition mpi_neighbours (owner : Z -> nat) (known : list (list Z)) (gs : list graph) : Prop :=
  length gs = length known /\
  forall r g, nth_error gs r = Some g ->
    NoDup (g_dests g) /\ (forall d, In d (g_dests g) <-> exists x, In x (nth r known []) /\ owner x = d) /\
    NoDup (g_srcs g) /\ (forall s, In s (g_srcs g) <-> exists x, In x (nth s known []) /\ owner x = r) /\
    Permutation (g_rsrcs g) (g_dests g) /\ Permutation (g_rdests g) (g_srcs g).

(** A history of collective calls of extend_exchange_pattern. *)
Definition history := list (list (list (nat * Z)) * list graph).

Fixpoint known_after (known : list (list Z)) (h : history) : list (list Z) :=
  match h with
  | [] => known
  | (ids, _) :: h' => known_after (extend_known known (map ids_of ids)) h'
  end.

Fixpoint legal (owner : Z -> nat) (own : list (list Z)) (known : list (list Z)) (h : history) : Prop :=
  match h with
  | [] => True
  | (ids, gs) :: h' =>
      length ids = length own /\ (forall l, In l ids -> pairs_ok owner own l) /\
      mpi_neighbours owner (extend_known known (map ids_of ids)) gs /\
      legal owner own (extend_known known (map ids_of ids)) h'
  end.

(** What the ranks passed in the whole history. *)
Definition passed (own : list (list Z)) (h : history) : list (list Z) := known_after (map (fun _ => []) own) h.

Definition run (own : list (list Z)) (h : history) : option (list bmi) :=
  foldM (fun w p => extend_exchange_pattern w (fst p) (snd p)) (map bmi_create own) h.

(** The numbering of the facets a rank knows. *)
Record numbering (known : list Z) (b : bmi) : Prop := {
  num_count : forall i, (exists g, get_geom_id_from_seq_index b i = Some g) <-> i < get_num_intersection_geoms b;
  num_known : forall g, (exists i, get_seq_index_from_geom_id b g = Some i) <-> In g known;
  num_inverse : forall i g, get_geom_id_from_seq_index b i = Some g <-> get_seq_index_from_geom_id b g = Some i
}.

(** The number of calls that brought a facet some rank had not passed before. *)
Fixpoint news (known : list (list Z)) (h : history) : nat :=
  match h with
  | [] => 0
  | (ids, _) :: h' =>
      (if existsb (fun p => existsb (fun x => negb (existsb (Z.eqb x) (fst p))) (snd p)) (combine known (map ids_of ids)) then 1 else 0)
      + news (extend_known known (map ids_of ids)) h'
  end.

(** Buffers of the ranks with at least the given sizes. *)
Definition sized {T} (w : list bmi) (size : bmi -> nat) (bufs : list (list T)) : Prop :=
  length bufs = length w /\
  forall r b m, nth_error w r = Some b -> nth_error bufs r = Some m -> size b <= length m.

(** Addition in any order. *)
Record commutative_monoid {T} (add : T -> T -> T) (zero : T) : Prop := {
  add_assoc : forall a b c, add a (add b c) = add (add a b) c;
  add_comm : forall a b, add a b = add b a;
  add_zero : forall a, add a zero = a
}.

(** The sum of the values of the ranks that know a facet. *)
Definition sum {T} (add : T -> T -> T) (zero : T) (l : list T) : T := fold_right add zero l.

(** Component [c] of the facet [g] in the buffer of a rank that knows it. *)
Definition staged {T} (b : bmi) (ncomp c : nat) (buf : list T) (g : Z) : option T :=
  i <- get_seq_index_from_geom_id b g ;; nth_error buf (i * ncomp + c).

(** The values the ranks have for component [c] of facet [g]: one for each rank that knows
    the facet. *)
Definition contributions_of {T} (w : list bmi) (bufs : list (list T)) (ncomp c : nat) (g : Z) : list T :=
  flat_map (fun p => match staged (fst p) ncomp c (snd p) g with Some v => [v] | None => [] end) (combine w bufs).

(** The ranks own different facets, and each of them once. *)
Definition ownership (owner : Z -> nat) (own : list (list Z)) : Prop :=
  (forall o, In o own -> NoDup o) /\ forall r o g, nth_error own r = Some o -> In g o -> owner g = r.

(** Nothing is known before the first call. *)
Definition nothing (own : list (list Z)) : list (list Z) := map (fun _ => []) own.

(** Arrays with [ncomp] values for each facet a rank owns. *)
Definition owned_arrays {T} (own : list (list Z)) (ncomp : nat) (ms : list (list T)) : Prop :=
  length ms = length own /\
  forall r o m, nth_error own r = Some o -> nth_error ms r = Some m -> length o * ncomp <= length m.
