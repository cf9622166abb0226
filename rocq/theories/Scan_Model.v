(** Model of the block decomposition in typedefs.hpp and of the prefix-sum
    routines in algorithms/common.hpp. *)
From Coq Require Import List Arith.
Import ListNotations.
From Verif Require Import Base.

(** include/neso_particles/typedefs.hpp L156-187, [get_decomp_1d]:
    [p = N / U], [q = N % U], [n = (i < q) ? p + 1 : p],
    [start = MIN(i, q) * (p + 1) + ((i > q) ? (i - q) * p : 0)].
    Machine integers are [nat]. *)
Definition decomp_start (U N i : nat) : nat :=
  let p := N / U in
  let q := N mod U in
  (if i <? q then i else q) * (p + 1) + (if q <? i then (i - q) * p else 0).

(** include/neso_particles/typedefs.hpp L164,L166: [end = start + n]. *)
Definition decomp_end (U N i : nat) : nat :=
  let p := N / U in
  let q := N mod U in
  decomp_start U N i + (if i <? q then p + 1 else p).

(** include/neso_particles/typedefs.hpp L189-203, [get_decomp_1d_inverse].
    The division by [p] in the else branch is a failure when [p = 0]. *)
Definition decomp_inverse (U N w : nat) : option nat :=
  let p := N / U in
  let q := N mod U in
  let nlower := p + 1 in
  let cutoff := nlower * q in
  if w <? cutoff then Some (w / nlower)
  else if p =? 0 then None
  else Some (q + (w - cutoff) / p).

(** include/neso_particles/typedefs.hpp L227-230, [div_round_up]. *)
Definition div_round_up (N M : nat) : nat :=
  let q0 := N / M in if q0 * M <? N then q0 + 1 else q0.

(** include/neso_particles/typedefs.hpp L221-225, [get_next_multiple]. *)
Definition get_next_multiple (N M : nat) : nat := ((N + (M - 1)) / M) * M.

Section Scan.
  (** The element type [T], its [+] and its [0].  Closed: every definition
      takes them as arguments. *)
  Context {T : Type} (add : T -> T -> T) (zero : T).

  Definition sum (l : list T) : T := fold_left add l zero.

  (** The SYCL built-in [sycl::joint_exclusive_scan(group, first, last,
      result, plus)] as used at algorithms/common.hpp L36-37, L117-118,
      L150-151, L265-266: reads [src + first .. src + last), writes
      [result[i] = src[first] + .. + src[first + i - 1]].  The value it leaves
      in [result[0]] is the arbitrary [junk]: every caller overwrites it. *)
  Definition group_exscan (junk : T) (src : list T) (first last : nat)
      (dst : list T) (result : nat) : option (list T) :=
    l <- slice src first last ;;
    scatter dst
      (map (fun i => (result + i, if i =? 0 then junk else sum (firstn i l)))
           (seq 0 (length l))).

  (** algorithms/common.hpp L18-45, [joint_exclusive_scan(target, N, d_src,
      d_dst)]: one work group; then [d_dst[0] = 0]. *)
  Definition joint_exclusive_scan1 (junk : T) (N : nat) (src dst : list T)
    : option (list T) :=
    if N =? 0 then Some dst
    else d <- group_exscan junk src 0 N dst 0 ;; upd d 0 zero.

  (** src/algorithms/common.cpp L12-25,
      [get_joint_exclusive_scan_aux_num_blocks]. *)
  Definition aux_num_blocks (local_size max_compute_units N : nat) : nat :=
    Nat.min (div_round_up N local_size) max_compute_units.

  (** algorithms/common.hpp L107-123, kernel [e0] for one block: scan of the
      block's own elements, then [d_dst[start] = 0]. *)
  Definition scan_block (junk : nat -> T) (nb N : nat) (src dst : list T) (b : nat)
    : option (list T) :=
    d <- group_exscan (junk b) src (decomp_start nb N b) (decomp_end nb N b)
                      dst (decomp_start nb N b) ;;
    upd d (decomp_start nb N b) zero.

  (** algorithms/common.hpp L129-141, first half of kernel [e1]: the total of
      block [ix] goes to [d_aux[ix]]. *)
  Definition scan_block_total (nb N : nat) (src dst aux : list T) (ix : nat)
    : option (list T) :=
    let last_index := decomp_end nb N ix - 1 in
    a <- rd dst last_index ;;
    b <- rd src last_index ;;
    upd aux ix (add a b).

  (** algorithms/common.hpp L129-141: the indices [ix] visited by the
      [local_size] work items of kernel [e1]. *)
  Definition scan_total_items (nb local_size : nat) : list nat :=
    flat_map (fun local_index => for_loop local_index nb local_size)
             (seq 0 local_size).

  (** algorithms/common.hpp L160-177, kernel [e2]: the (block, ix) pairs
      visited by its [(num_blocks - 1) * local_size] work items. *)
  Definition scan_shift_items (nb N local_size : nat) : list (nat * nat) :=
    flat_map (fun b0 =>
      flat_map (fun local_index =>
        map (fun ix => (b0 + 1, ix))
            (for_loop (local_index + decomp_start nb N (b0 + 1))
                      (decomp_end nb N (b0 + 1)) local_size))
        (seq 0 local_size))
      (seq 0 (nb - 1)).

  (** algorithms/common.hpp L169-176: [d_dst[ix] += d_aux[nb + block]]. *)
  Definition scan_shift (nb : nat) (aux dst : list T) (w : nat * nat)
    : option (list T) :=
    shift <- rd aux (nb + fst w) ;;
    v <- rd dst (snd w) ;;
    upd dst (snd w) (add v shift).

  (** The orders in which the work items of the three kernels take effect. *)
  Record scan_schedule := {
    sched_blocks : list nat;          (* e0: the work groups *)
    sched_totals : list nat;          (* e1: first loop *)
    sched_shift : list (nat * nat)    (* e2 *)
  }.

  (** algorithms/common.hpp L87-180, [joint_exclusive_scan(target, N, d_aux,
      d_src, d_dst)].  [junk] gives what the built-in leaves in the first
      element of each group's result. *)
  Definition joint_exclusive_scan2 (junk : nat -> T) (sc : scan_schedule)
      (local_size max_compute_units N : nat) (aux src dst : list T)
    : option (list T) :=
    if N =? 0 then Some dst
    else
      let nb := aux_num_blocks local_size max_compute_units N in
      if nb <? 2 then joint_exclusive_scan1 (junk 0) N src dst
      else
        dst1 <- foldM (scan_block junk nb N src) dst (sched_blocks sc) ;;
        aux1 <- foldM (scan_block_total nb N src dst1) aux (sched_totals sc) ;;
        aux2 <- group_exscan (junk nb) aux1 0 nb aux1 nb ;;
        aux3 <- upd aux2 nb zero ;;
        foldM (scan_shift nb aux3) dst1 (sched_shift sc).

  (** algorithms/common.hpp L248-269, kernel of [joint_exclusive_scan_n] for
      one array. *)
  Definition scan_n_item (junk : nat -> T) (sizes offsets : list nat)
      (src dst : list T) (a : nat) : option (list T) :=
    n <- rd sizes a ;;
    if n =? 0 then Some dst
    else
      o <- rd offsets a ;;
      d <- group_exscan (junk a) src o (o + n) dst o ;;
      upd d o zero.

  (** algorithms/common.hpp L236-272, [joint_exclusive_scan_n]; [sched] is the
      order of the [N] work groups. *)
  Definition joint_exclusive_scan_n (junk : nat -> T) (sched : list nat)
      (sizes offsets : list nat) (src dst : list T) : option (list T) :=
    foldM (scan_n_item junk sizes offsets src) dst sched.

  (** algorithms/common.hpp L409-421, second kernel of
      [joint_exclusive_scan_n_sum] for one array. *)
  Definition scan_n_sum_item (sizes offsets : list nat) (src dst : list T)
      (tot : list T) (a : nat) : option (list T) :=
    n <- rd sizes a ;;
    if n =? 0 then upd tot a zero
    else
      o <- rd offsets a ;;
      x <- rd src (o + n - 1) ;;
      y <- rd dst (o + n - 1) ;;
      upd tot a (add x y).

  (** algorithms/common.hpp L396-424, [joint_exclusive_scan_n_sum]: returns the
      scanned array and the totals. *)
  Definition joint_exclusive_scan_n_sum (junk : nat -> T)
      (sched sched_sum : list nat) (sizes offsets : list nat)
      (src dst tot : list T) : option (list T * list T) :=
    d <- joint_exclusive_scan_n junk sched sizes offsets src dst ;;
    t <- foldM (scan_n_sum_item sizes offsets src d) tot sched_sum ;;
    Some (d, t).
End Scan.
Arguments scan_schedule : clear implicits.
