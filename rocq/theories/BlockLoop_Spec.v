(** What the pair loop over block pair lists is supposed to do. *)
From Coq Require Import List Arith ZArith Bool.
Import ListNotations.
From Verif Require Import Base PairList_Model PairList_Spec SamplerNTC_Model SamplerNTC_Spec.
Local Open Scope nat_scope.

(** The pairs (with their waves) of each cell. *)
Definition cell_pairs := list (list (nat * nat * nat)).
Definition pairs_in (P : cell_pairs) (c : nat) : list (nat * nat * nat) := nth c P [].

(** The pairs of a block are divided into [waves] waves of pairs that do not share a
    particle. *)
Record wave_block (L : list (nat * nat * nat)) (waves : nat) : Prop := {
  wb_apart : forall x y p q w, x <> y -> nth_error L x = Some (p, w) -> nth_error L y = Some (q, w) -> ~ share p q;
  wb_waves : forall p w, In (p, w) L -> w < waves
}.

(** A well-formed list that holds the pairs [P]: a kernel reads these pairs, numbered
    through all cells, and each block is divided into waves. *)
Record holds (block_size : nat) (bl : block_list) (P : cell_pairs) : Prop := {
  h_block_size : bl_block_size bl = block_size;
  h_count : bl_pair_count bl = list_sum (map (@length _) P);
  h_pairs : forall c, c < length P -> read_block_pairs bl c = Some (pairs_in P c);
  h_index : forall c x, c < length P -> bl_linear_index bl c x = Some (list_sum (map (@length _) (firstn c P)) + x);
  h_waves : forall c b, b * block_size < length (pairs_in P c) -> exists waves, bl_num_waves bl c b = Some waves /\
    wave_block (block_of block_size b (pairs_in P c)) waves /\ waves <= bl_max_wave_count bl;
  h_max : bl_max_wave_count bl <= block_size
}.

(** The number of pairs of the lists before list [l], and of the cells before cell [c] of
    list [l]. *)
Definition first_number (Ps : list cell_pairs) (l c : nat) : nat :=
  list_sum (map (fun P => list_sum (map (@length _) P)) (firstn l Ps)) + list_sum (map (@length _) (firstn c (nth l Ps []))).

(** The calls for the pairs of a cell of a list, in order. *)
Definition cell_calls (Ps : list cell_pairs) (l c : nat) : list call :=
  let L := pairs_in (nth l Ps []) c in
  map (fun e => let '(x, (i, j, w)) := e in mk_call l c w i j (Z.of_nat (first_number Ps l c + x))) (combine (seq 0 (length L)) L).

(** All calls for the cells [first .. last). *)
Definition block_calls (Ps : list cell_pairs) (first last : nat) : list call :=
  flat_map (fun l => flat_map (cell_calls Ps l) (seq first (last - first))) (seq 0 (length Ps)).

(** The block of a call. *)
Definition block_no (block_size : nat) (Ps : list cell_pairs) (x : call) : nat :=
  (Z.to_nat (c_index x) - first_number Ps (c_list x) (c_cell x)) / block_size.

(** The pairs of the given cells in the order: list, cell, block, wave, place. *)
Definition in_wave_order (block_size : nat) (Ps : list cell_pairs) (first last : nat) : list (nat * (nat * nat)) :=
  flat_map (fun l => flat_map (fun c =>
      let L := pairs_in (nth l Ps []) c in
      flat_map (fun b => flat_map (fun w => map (fun p => (c, fst p)) (filter (fun p => snd p =? w) (block_of block_size b L)))
                           (seq 0 block_size))
        (seq 0 (length L)))
    (seq first (last - first))) (seq 0 (length Ps)).

(** The pairs of the given cells in the order: list, cell, place. *)
Definition in_place_order (Ps : list cell_pairs) (first last : nat) : list (nat * (nat * nat)) :=
  flat_map (fun l => flat_map (fun c => map (fun p => (c, fst p)) (pairs_in (nth l Ps []) c)) (seq first (last - first))) (seq 0 (length Ps)).

(** No particle of a cell is in pairs of two lists. *)
Definition lists_apart (Ps : list cell_pairs) : Prop :=
  forall l l' c p q w w', l <> l' -> In (p, w) (pairs_in (nth l Ps []) c) -> In (q, w') (pairs_in (nth l' Ps []) c) -> ~ share p q.

(** A list that sample has made, with its pairs. *)
Definition sampled (d : device) (cells block_size : nat) (is_cpu : bool) (bl : block_list) (P : cell_pairs) : Prop :=
  exists r, ntc_ok cells r /\ ntc_run d cells block_size is_cpu r = Some bl /\ length P = cells /\
    forall c, c < cells -> read_block_pairs bl c = Some (pairs_in P c).

(** The calls between two barriers of a work group, or of a kernel. *)
Definition concurrent (ex : execution) (calls : list call) : Prop :=
  match ex with Kernels phases => In calls phases | Groups groups => exists g, In g groups /\ In calls g end.
