(** What the sampler without replacement is supposed to do. *)
From Coq Require Import List Arith ZArith QArith Bool Permutation.
Import ListNotations.
From Verif Require Import Base Maps_Model Maps_Props PairList_Model PairList_Spec Partition_Model Partition_Spec SamplerNR_Model.
Local Open Scope nat_scope.

(** A call of sample.  [q_counts] holds for each mesh cell the number of pairs asked
    for in each collision cell; [q_rng n] are the [n] random numbers drawn. *)
Record request := mk_request {
  q_k : nat; q_partition : partition; q_a : Z; q_b : Z; q_counts : list (list nat); q_rng : nat -> list Q
}.

(** A sampler after the given calls. *)
Definition sampler_after (d : device) (cells k : nat) (rs : list request) : option simple :=
  foldM (fun s r => sample d cells (q_k r) s (q_partition r) (q_a r) (q_b r) (q_counts r) (q_rng r))
    (sampler_create d cells k) rs.

(** The partition holds the particles [parts] in [ccells[c]] collision cells per mesh
    cell [c] and knows the two species. *)
Definition partition_of (d : device) (cells : nat) (parts : list particle) (ccells : list nat) (a b : Z) (cp : partition) : Prop :=
  exists W f ids history k, (0 < W)%Z /\ allocation W f /\ ids <> [] /\ In a ids /\ In b ids /\
    (forall h, In h (history ++ [mk_construction k parts ccells]) -> valid cells ids (parts_of h) (counts_of h)) /\
    partition_after d W f cells ids (history ++ [mk_construction k parts ccells]) = Some cp.

(** A meaningful call: the partition is as above, the particles are different
    particles, the number of pairs asked for is at most what get_max_num_pairs
    reports, and the source draws as many numbers as it is asked for.  Nothing is
    asked of the numbers. *)
Definition request_ok (d : device) (cells : nat) (parts : list particle) (ccells : list nat) (r : request) : Prop :=
  partition_of d cells parts ccells (q_a r) (q_b r) (q_partition r) /\
  NoDup (map (fun p => (p_cell p, p_layer p)) parts) /\
  (forall c, c < cells -> exists row, nth_error (q_counts r) c = Some row /\ length row <= nth c ccells 0 /\
     forall cc n, nth_error row cc = Some n ->
       (Z.of_nat n <= most_pairs false (q_a r =? q_b r)%Z (length (members parts c cc (q_a r))) (length (members parts c cc (q_b r))))%Z) /\
  forall n, length (q_rng r n) = n.

(** The pairs [P] of a mesh cell, a list for each collision cell, are what the call
    asks for: the right number for each collision cell, the first particle of a pair
    of the first species and the second of the second species, both in that
    collision cell; and no particle of the mesh cell is used twice. *)
Record as_requested (parts : list particle) (a b : Z) (row : list nat) (c : nat) (P : list (list (nat * nat))) : Prop := {
  ar_length : length P = length row;
  ar_count : forall cc ps, nth_error P cc = Some ps -> nth_error row cc = Some (length ps);
  ar_members : forall cc ps p, nth_error P cc = Some ps -> In p ps ->
    In (fst p) (members parts c cc a) /\ In (snd p) (members parts c cc b);
  ar_distinct : NoDup (particles_of (concat P))
}.

(** The particles (cell and layer) that a call of a loop for a pair uses. *)
Definition users (p : nat * (nat * nat)) : list (nat * nat) := [(fst p, fst (snd p)); (fst p, snd (snd p))].

(** The same call with another source of random numbers. *)
Definition with_rng (r : request) (rng : nat -> list Q) : request := mk_request (q_k r) (q_partition r) (q_a r) (q_b r) (q_counts r) rng.
