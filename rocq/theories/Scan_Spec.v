(** What the block decomposition and the prefix sums are supposed to compute. *)
From Coq Require Import List Arith.
Import ListNotations.

(** Sum of a list, right to left. *)
Definition total {T} (add : T -> T -> T) (zero : T) (l : list T) : T :=
  fold_right add zero l.

(** [add], [zero] form a commutative monoid (true of machine integers with
    wrap-around, of [Z], of [nat]; not of floating point numbers). *)
Definition commutative_monoid {T} (add : T -> T -> T) (zero : T) : Prop :=
  (forall a b c, add a (add b c) = add (add a b) c) /\
  (forall a, add zero a = a) /\ (forall a b, add a b = add b a).

(** [out] holds at each [i < N] the sum of the first [i] inputs, and is
    otherwise equal to what was there before ([old]). *)
Definition is_exclusive_scan {T} (add : T -> T -> T) (zero : T)
    (N : nat) (src old out : list T) : Prop :=
  (forall i, i < N -> nth_error out i = Some (total add zero (firstn i src))) /\
  (forall i, N <= i -> nth_error out i = nth_error old i) /\
  length out = length old.

(** Segment [a] of a packed collection of arrays: [offsets[a] .. offsets[a] +
    sizes[a]). *)
Definition in_segment (sizes offsets : list nat) (a j : nat) : Prop :=
  exists n o, nth_error sizes a = Some n /\ nth_error offsets a = Some o /\ o <= j < o + n.

(** The segments do not overlap and lie inside the first [len] elements. *)
Definition segments_ok (sizes offsets : list nat) (len : nat) : Prop :=
  length sizes = length offsets /\
  (forall a j, in_segment sizes offsets a j -> j < len) /\
  (forall a b j, in_segment sizes offsets a j -> in_segment sizes offsets b j -> a = b).

(** Each segment holds the exclusive scan of the same segment of [src];
    everything outside the segments is as before. *)
Definition is_segmented_scan {T} (add : T -> T -> T) (zero : T)
    (sizes offsets : list nat) (src old out : list T) : Prop :=
  (forall a n o i, nth_error sizes a = Some n -> nth_error offsets a = Some o -> i < n ->
     nth_error out (o + i) = Some (total add zero (firstn i (skipn o src)))) /\
  (forall j, (forall a, ~ in_segment sizes offsets a j) -> nth_error out j = nth_error old j) /\
  length out = length old.

(** [tot[a]] is the sum of segment [a]. *)
Definition is_segment_totals {T} (add : T -> T -> T) (zero : T)
    (sizes offsets : list nat) (src tot : list T) : Prop :=
  forall a n o, nth_error sizes a = Some n -> nth_error offsets a = Some o ->
    nth_error tot a = Some (total add zero (firstn n (skipn o src))).
