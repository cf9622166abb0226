(** What the sampler with replacement is supposed to do. *)
From Coq Require Import List Arith ZArith QArith Bool.
Import ListNotations.
From Verif Require Import Base Scan_Model SamplerNTC_Model.
Local Open Scope nat_scope.

(** What a kernel reads for a cell: the pairs and their waves. *)
Definition read_block_pairs (s : block_list) (cell : nat) : option (list (nat * nat * nat)) :=
  n <- bl_num_pairs s cell ;;
  mapM (fun p =>
      i <- bl_index_i s cell p ;;
      j <- bl_index_j s cell p ;;
      w <- bl_pair_wave s cell p ;;
      Some (i, j, w)) (seq 0 n).

(** Two pairs that have a particle in common. *)
Definition share (p q : nat * nat) : Prop := fst p = fst q \/ fst p = snd q \/ snd p = fst q \/ snd p = snd q.

(** The entries of block [b] of a list. *)
Definition block_of {A} (block_size b : nat) (l : list A) : list A := firstn block_size (skipn (b * block_size) l).

(** The pairs of a block and their waves: pairs that share a particle are in different
    waves, and the waves are 0, 1, ..., [waves] - 1, none of them empty. *)
Record good_block (L : list (nat * nat * nat)) (waves : nat) : Prop := {
  gb_apart : forall x y p q w, x <> y -> nth_error L x = Some (p, w) -> nth_error L y = Some (q, w) -> ~ share p q;
  gb_waves : forall w, w < waves <-> exists p, In (p, w) L
}.

(** A call of sample: [s_same] if both sub-groups are the same. *)
Record ntc_request := mk_ntc {
  s_k : nat; s_same : bool; s_a : list (list nat); s_b : list (list nat); s_npart : list nat; s_counts : list nat; s_rng : nat -> list Q
}.
Definition ntc_run (d : device) (cells block_size : nat) (is_cpu : bool) (r : ntc_request) : option block_list :=
  ntc_sample d cells block_size (s_k r) is_cpu (s_same r) (s_a r) (s_b r) (s_npart r) (s_counts r) (s_rng r).

(** A meaningful call: the selections are sets of particles of each cell, which are
    not too small where pairs are asked for, and random numbers are not negative. *)
Record ntc_ok (cells : nat) (r : ntc_request) : Prop := {
  no_counts : length (s_counts r) = cells;
  no_npart : cells <= length (s_npart r);
  no_a : length (s_a r) = cells;
  no_b : length (s_b r) = cells;
  no_layers : forall c row l, In row [nth c (s_a r) []; nth c (s_b r) []] -> In l row -> l < nth c (s_npart r) 0;
  no_sets : forall c, NoDup (nth c (s_a r) []) /\ NoDup (nth c (s_b r) []);
  no_same : s_same r = true -> s_a r = s_b r;
  no_enough : forall c, nth c (s_counts r) 0 <> 0 ->
    if s_same r then 2 <= length (nth c (s_a r) []) else 1 <= length (nth c (s_a r) []) /\ 1 <= length (nth c (s_b r) []);
  no_rng : forall n, length (s_rng r n) = n /\ forall u, In u (s_rng r n) -> (0 <= u)%Q
}.

(** [u] is in part [k] of [n] equal parts of [0, 1). *)
Definition part (n k : nat) (u : Q) : Prop :=
  (inject_Z (Z.of_nat k) <= inject_Z (Z.of_nat n) * u)%Q /\ (inject_Z (Z.of_nat n) * u < inject_Z (Z.of_nat k + 1))%Q.

(** The pair that two samples in [0, 1) stand for: the first picks a particle of the
    first selection; the second picks a particle of the second selection or, if both are
    the same, one of the other particles. *)
Definition chosen (same : bool) (row_a row_b : list nat) (u v : Q) (i j : nat) : Prop :=
  exists k m, part (length row_a) k u /\ nth_error row_a k = Some i /\
    if same then part (length row_a - 1) m v /\ nth_error row_a ((k + 1 + m) mod length row_a) = Some j
    else part (length row_b) m v /\ nth_error row_b m = Some j.

(** The pairs of a cell are what the call asks for.  Pair [x] of the cell is drawn with
    the two samples that no other pair of any cell uses. *)
Record ntc_pairs (r : ntc_request) (c : nat) (L : list (nat * nat * nat)) : Prop := {
  np_count : length L = nth c (s_counts r) 0;
  np_members : forall i j w, In (i, j, w) L -> In i (nth c (s_a r) []) /\ In j (nth c (s_b r) []);
  np_distinct : s_same r = true -> forall i j w, In (i, j, w) L -> i <> j;
  np_chosen : forall x i j w u v,
    let total := list_sum (s_counts r) in
    let before := list_sum (firstn c (s_counts r)) in
    let reals := s_rng r (2 * total) in
    nth_error L x = Some (i, j, w) ->
    nth_error reals (before + x) = Some u -> nth_error reals (total + before + x) = Some v ->
    (u < 1)%Q -> (v < 1)%Q -> chosen (s_same r) (nth c (s_a r) []) (nth c (s_b r) []) u v i j
}.

(** What a kernel may rely on: the list of each cell is as asked for, its pairs are
    numbered after those of the cells before it, each of its blocks is divided into
    waves, and the largest number of waves is known. *)
Record ntc_result (cells block_size : nat) (r : ntc_request) (bl : block_list) : Prop := {
  nr_total : bl_pair_count bl = list_sum (s_counts r);
  nr_block_size : bl_block_size bl = block_size;
  nr_cells : bl_cell_count bl = cells;
  nr_cell : forall c, c < cells -> exists L, read_block_pairs bl c = Some L /\ ntc_pairs r c L /\
    forall b, b * block_size < length L -> exists waves, bl_num_waves bl c b = Some waves /\
      good_block (block_of block_size b L) waves /\ waves <= bl_max_wave_count bl;
  nr_index : forall c x, c < cells -> bl_linear_index bl c x = Some (list_sum (firstn c (s_counts r)) + x);
  nr_max : bl_max_wave_count bl <= block_size;
  nr_used : forall w, w < bl_max_wave_count bl -> exists c L p, c < cells /\ read_block_pairs bl c = Some L /\ In (p, w) L
}.

(** Pairs of a block that share a particle are in the order of the list. *)
Definition in_list_order (block_size : nat) (L : list (nat * nat * nat)) : Prop :=
  forall b x y p q w w', x < y -> nth_error (block_of block_size b L) x = Some (p, w) -> nth_error (block_of block_size b L) y = Some (q, w') ->
    share p q -> w < w'.
