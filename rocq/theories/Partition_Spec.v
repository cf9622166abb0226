(** What the partition into collision cells is supposed to hold. *)
From Coq Require Import List Arith ZArith Bool.
Import ListNotations.
From Verif Require Import Base Maps_Model Partition_Model.

(** The layers of the particles of species [x] in collision cell [cc] of mesh cell
    [c]. *)
Definition members (parts : list particle) (c cc : nat) (x : Z) : list nat :=
  map p_layer (filter (fun p => (p_cell p =? c) && (p_ccell p =? Z.of_nat cc)%Z && (p_species p =? x)%Z) parts).

(** Each mesh cell [c] has [counts[c]] collision cells.  The particles of the
    species of the partition are in one of the collision cells of their mesh cell;
    nothing is asked of particles of other species. *)
Definition valid (cells : nat) (ids : list Z) (parts : list particle) (counts : list nat) : Prop :=
  cells <= length counts /\
  forall p, In p parts -> In (p_species p) ids ->
    p_cell p < cells /\ exists n, nth_error counts (p_cell p) = Some n /\ (0 <= p_ccell p < Z.of_nat n)%Z.

(** A partition for the species [ids] after the given calls of construct.  Each call
    has a number [k] that stands for its scheduling and for the contents of the
    memory it allocates. *)
Record construction := mk_construction { k_of : nat; parts_of : list particle; counts_of : list nat }.
Definition partition_after (d : device) (W : Z) (f : nat -> node nat) (cells : nat) (ids : list Z)
    (history : list construction) : option partition :=
  s <- create W f cells ids ;;
  foldM (fun s h => construct d W (k_of h) s (parts_of h) (counts_of h)) s history.

(** What a kernel reads for a species in a collision cell: [Some None] if the species
    is not known. *)
Definition read_members (W : Z) (s : partition) (c cc : nat) (x : Z) : option (option (list nat)) :=
  found <- get_linear_species_index W s x ;;
  match found with
  | None => Some None
  | Some lin =>
      n <- get_num_particles_cell_species s c cc lin ;;
      l <- mapM (get_particle_layer s c cc lin) (seq 0 n) ;;
      Some (Some l)
  end.

(** A selection of pairs between species [a] and [b] from the particles [A] and [B]
    of these species such that no particle is in more than one pair. *)
Definition disjoint_pairs (same : bool) (A B : list nat) (pairs : list (nat * nat)) : Prop :=
  (forall p, In p pairs -> In (fst p) A /\ In (snd p) B) /\
  if same then NoDup (flat_map (fun p => [fst p; snd p]) pairs)
  else NoDup (map fst pairs) /\ NoDup (map snd pairs).

(** The number of pairs that may be asked for: with replacement any number that an
    int holds if there is a pair at all. *)
Definition most_pairs (replacement same : bool) (na nb : nat) : Z :=
  if replacement then
    if (if same then 2 <=? na else (1 <=? na) && (1 <=? nb)) then max_int else 0%Z
  else Z.of_nat (if same then na / 2 else Nat.min na nb).
