(** What the checks and statistics of block pair lists are supposed to do. *)
From Coq Require Import List Arith ZArith QArith Bool.
Import ListNotations.
From Verif Require Import Base Scan_Model SamplerNTC_Model SamplerNTC_Spec BlockLoop_Spec.
Local Open Scope nat_scope.

(** A list whose memory can be read: for each cell the pairs [P], a start in the list of
    pairs and the number of waves of each block. *)
Record readable (bl : block_list) (P : cell_pairs) : Prop := {
  rb_cells : bl_cell_count bl = length P;
  rb_pairs : forall c, c < length P -> read_block_pairs bl c = Some (pairs_in P c);
  rb_start : forall c, c < length P -> exists e, bl_linear_index bl c 0 = Some e;
  rb_waves : forall c b, b * bl_block_size bl < length (pairs_in P c) -> exists waves, bl_num_waves bl c b = Some waves
}.

(** No pair of a particle and itself. *)
Definition no_self_pairs (P : cell_pairs) : Prop := forall c i j w, In (i, j, w) (pairs_in P c) -> i <> j.

(** The number of waves of each block is not larger than necessary. *)
Definition waves_needed (bl : block_list) (P : cell_pairs) : Prop :=
  forall c b waves, b * bl_block_size bl < length (pairs_in P c) -> bl_num_waves bl c b = Some waves ->
    exists p w, waves = S w /\ In (p, w) (block_of (bl_block_size bl) b (pairs_in P c)).

(** The host form of the pairs of a cell. *)
Definition host_form (L : list (nat * nat * nat)) : list nat * list nat * list nat :=
  (map (fun p => fst (fst p)) L, map (fun p => snd (fst p)) L, map snd L).

(** The number of pairs of each wave of each block of each cell. *)
Definition wave_sizes (block_size : nat) (waves : nat -> nat -> nat) (P : cell_pairs) : list nat :=
  flat_map (fun c => flat_map (fun b =>
      map (fun w => length (filter (fun p => snd p =? w) (block_of block_size b (pairs_in P c)))) (seq 0 (waves c b)))
    (seq 0 (div_round_up (length (pairs_in P c)) block_size))) (seq 0 (length P)).

(** The number of waves of the blocks of a list. *)
Definition has_waves (bl : block_list) (P : cell_pairs) (waves : nat -> nat -> nat) : Prop :=
  forall c b, b * bl_block_size bl < length (pairs_in P c) -> bl_num_waves bl c b = Some (waves c b).
