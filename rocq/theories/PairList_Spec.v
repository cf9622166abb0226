(** What the pair lists and the loop over them are supposed to do. *)
From Coq Require Import List Arith ZArith Bool Permutation.
Import ListNotations.
From Verif Require Import Base PairList_Model.

(** A pair of layers pushed to a cell. *)
Definition push : Type := nat * (nat * nat).

(** The host list orders the two particles of a pair. *)
Definition ordered_pair (p : nat * nat) : nat * nat := (Nat.min (fst p) (snd p), Nat.max (fst p) (snd p)).

(** Two pushes that concern a common particle. *)
Definition in_conflict (a b : push) : Prop :=
  fst a = fst b /\
  (fst (snd a) = fst (snd b) \/ fst (snd a) = snd (snd b) \/ snd (snd a) = fst (snd b) \/ snd (snd a) = snd (snd b)).

(** The host list after the given calls of push_back on an empty list. *)
Definition host_pushes (cell_count : nat) (ps : list push) : option host_list :=
  foldM (fun s p => host_push_back cell_count s (fst p) (fst (snd p)) (snd (snd p))) host_empty ps.

(** The waves of a cell of a host list, as pairs. *)
Definition host_waves (h : host_list) (cell : nat) : list (list (nat * nat)) :=
  map (fun w => let p := wave_of (waves_of (map_wave_to_pairs h) cell) w in combine (fst p) (snd p))
    (seq 0 (length (waves_of (map_wave_to_pairs h) cell))).

(** The pushes to a cell that an assignment of waves puts into a wave, in order. *)
Definition in_wave (ps : list push) (wave : list nat) (cell w : nat) : list (nat * nat) :=
  map (fun e => snd (fst e)) (filter (fun e : push * nat => (fst (fst e) =? cell) && (snd e =? w)) (combine ps wave)).

(** [wave] (the wave of each push) is a correct schedule of the pushes into the
    [waves] of each cell. *)
Record is_schedule (ps : list push) (wave : list nat) (waves : nat -> list (list (nat * nat))) : Prop := {
  (* each push has one wave, which is a wave of its cell *)
  sched_length : length wave = length ps;
  sched_bound : forall k p w, nth_error ps k = Some p -> nth_error wave k = Some w -> w < length (waves (fst p));
  (* a wave consists of the pairs pushed to it, in the order of the pushes *)
  sched_pairs : forall c w W, nth_error (waves c) w = Some W -> W = map ordered_pair (in_wave ps wave c w);
  (* of two pushes that share a particle the later one is in a later wave *)
  sched_order : forall k k' p p' w w', nth_error ps k = Some p -> nth_error ps k' = Some p' ->
    nth_error wave k = Some w -> nth_error wave k' = Some w' -> k < k' -> in_conflict p p' -> w < w';
  (* no push is put in a later wave than necessary: in the wave before its own is
     an earlier push that shares a particle with it *)
  sched_tight : forall k p w, nth_error ps k = Some p -> nth_error wave k = Some (S w) ->
    exists k' p', k' < k /\ nth_error ps k' = Some p' /\ nth_error wave k' = Some w /\ in_conflict p' p
}.

(** The particles of the pairs of a wave. *)
Definition particles_of (W : list (nat * nat)) : list nat := flat_map (fun p => [fst p; snd p]) W.

(** The pairs pushed to a cell, in order. *)
Definition pushed_to (ps : list push) (c : nat) : list (nat * nat) := map snd (filter (fun p => fst p =? c) ps).

(** ** A pair list on the device over its whole life *)

(** What a user does with a CellwisePairListSimple.  [SetHost ps] is [set] with a
    host list filled by the pushes [ps]. *)
Inductive op :=
  | Push (c i j : list nat)
  | SetHost (ps : list push)
  | Clear.

(** The calls, each with its own number (the scheduler and the contents of newly
    allocated memory depend on it). *)
Definition step (d : device) (cc : nat) (s : simple) (o : nat * op) : option simple :=
  match snd o with
  | Push c i j => push_back d cc (fst o) s c i j
  | SetHost ps => h <- host_pushes cc ps ;; set d cc (fst o) s cc (map_wave_to_pairs h)
  | Clear => clear d cc (fst o) s
  end.
Definition run (d : device) (cc k : nat) (os : list (nat * op)) : option simple :=
  s <- create d cc k ;; foldM (step d cc) s os.

(** The contents of a pair list: for each cell its waves, each a list of pairs. *)
Definition contents : Type := list (list (list (nat * nat))).

(** What a call makes of the contents.  After a push every cell has one wave, made
    of the pairs it had and the new ones in the order given. *)
Definition new_pairs (c i j : list nat) (cell : nat) : list (nat * nat) :=
  map snd (filter (fun p => fst p =? cell) (combine c (combine i j))).
Definition after (cc : nat) (C : contents) (o : op) : contents :=
  match o with
  | Push c i j =>
      match c with
      | [] => C
      | _ => map (fun cell => [concat (nth cell C []) ++ new_pairs c i j cell]) (seq 0 cc)
      end
  | SetHost ps =>
      match host_pushes cc ps with
      | Some h => map (host_waves h) (seq 0 cc)
      | None => C
      end
  | Clear => repeat [] cc
  end.
Definition expected (cc : nat) (os : list (nat * op)) : contents :=
  fold_left (fun C o => after cc C (snd o)) os (repeat [] cc).

(** A list that was set is cleared before pairs are pushed to it. *)
Fixpoint disciplined (was_set : bool) (os : list (nat * op)) : bool :=
  match os with
  | [] => true
  | (_, Push _ _ _) :: os' => negb was_set && disciplined was_set os'
  | (_, SetHost _) :: os' => disciplined true os'
  | (_, Clear) :: os' => disciplined false os'
  end.

(** The arguments of a call are meaningful. *)
Definition valid_op (cc : nat) (o : op) : Prop :=
  match o with
  | Push c i j => length i = length c /\ length j = length c /\ forall x, In x c -> x < cc
  | SetHost ps => forall p, In p ps -> fst p < cc
  | Clear => True
  end.

(** What a kernel reads of a list: the waves of a cell through the accessors of
    CellwisePairListDevice. *)
Definition device_waves (cc : nat) (s : simple) (cell : nat) : option (list (list (nat * nat))) :=
  nw <- get_num_waves s cell ;;
  mapM (fun w =>
      n <- get_num_pairs cc s w cell ;;
      mapM (fun p =>
          i <- get_particle_index cc 0 s w cell p ;;
          j <- get_particle_index cc 1 s w cell p ;;
          Some (i, j)) (seq 0 n)) (seq 0 nw).

(** A list has a number of pairs once pairs were pushed to it or it was set, until
    it is cleared. *)
Definition filled (os : list (nat * op)) : bool :=
  fold_left (fun b o => match snd o with
                        | Push [] _ _ => b
                        | Push _ _ _ | SetHost _ => true
                        | Clear => false
                        end) os false.

(** No pairs are pushed to a list that was ever [set]. *)
Fixpoint pushes_first (os : list (nat * op)) : bool :=
  match os with
  | [] => true
  | (_, SetHost _) :: os' => forallb (fun o => match snd o with Push _ _ _ => false | _ => true end) os'
  | _ :: os' => pushes_first os'
  end.

(** ** The loop over pair lists *)

(** A list that was filled by a history of calls, and its contents. *)
Definition list_with (d : device) (cc : nat) (s : simple) (os : list (nat * op)) : Prop :=
  exists k, run d cc k os = Some s /\ disciplined false os = true.

(** The number of pairs that come before wave [w] of cell [c]. *)
Definition pairs_before (C : contents) (c w : nat) : nat :=
  length (concat (concat (firstn c C))) + length (concat (firstn w (nth c C []))).

(** The calls for the pairs of one wave: each with its particles in order and with
    its number in the list plus the offset of the list. *)
Definition calls_for (offset : Z) (l : nat) (C : contents) (c w : nat) : list call :=
  let P := nth w (nth c C []) [] in
  map (fun iq => mk_call l c w (fst (snd iq)) (snd (snd iq)) (offset + Z.of_nat (pairs_before C c w + fst iq)))
    (combine (seq 0 (length P)) P).

(** The offset of each list: the sum of the pair counts of the lists before it; a
    list without contents counts -1 (see C43). *)
Definition count_of (cc : nat) (os : list (nat * op)) : Z :=
  if filled os then Z.of_nat (length (concat (concat (expected cc os)))) else (-1)%Z.
Definition offset_of (cc : nat) (oss : list (list (nat * op))) (l : nat) : Z :=
  fold_right Z.add 0%Z (map (count_of cc) (firstn l oss)).

(** All calls for wave [w] of the cells [first .. last). *)
Definition calls_of_wave (cc : nat) (oss : list (list (nat * op))) (first last w : nat) : list call :=
  flat_map (fun l => flat_map (fun c => calls_for (offset_of cc oss l) l (expected cc (nth l oss [])) c w)
                       (seq first (last - first))) (seq 0 (length oss)).

(** All calls of a loop over the cells [first .. last). *)
Definition all_calls (cc : nat) (oss : list (list (nat * op))) (first last : nat) : list call :=
  flat_map (fun l =>
    let C := expected cc (nth l oss []) in
    flat_map (fun c => flat_map (calls_for (offset_of cc oss l) l C c) (seq 0 (length (nth c C []))))
      (seq first (last - first))) (seq 0 (length oss)).

(** The number of pairs in a list. *)
Definition pair_total (cc : nat) (os : list (nat * op)) : nat := length (concat (concat (expected cc os))).

(** A list that was last set from the host list made by the pushes [ps]. *)
Definition list_set_to (d : device) (cc : nat) (s : simple) (ps : list push) : Prop :=
  exists os k, list_with d cc s (os ++ [(k, SetHost ps)]).

(** What an execution does in wave [w]. *)
Definition executed (ex : execution) (w : nat) : list call :=
  match ex with
  | Kernels phases => nth w phases []
  | Groups groups => flat_map (fun g => nth w g []) groups
  end.

(** The orders in which the calls of an execution may take effect.  The calls of a
    phase may take effect in any order.  Kernels run one after the other; the
    phases of a work group run one after the other, while different work groups
    are interleaved arbitrarily. *)
Inductive interleaving {A} : list (list A) -> list A -> Prop :=
  | int_done ls : (forall l, In l ls -> l = []) -> interleaving ls []
  | int_step ls1 x l ls2 o : interleaving (ls1 ++ l :: ls2) o -> interleaving (ls1 ++ (x :: l) :: ls2) (x :: o).
Definition phases_order (phases : list (list call)) (o : list call) : Prop :=
  exists phases', Forall2 (@Permutation call) phases phases' /\ o = concat phases'.
Inductive admissible : execution -> list call -> Prop :=
  | adm_kernels phases o : phases_order phases o -> admissible (Kernels phases) o
  | adm_groups groups os o : Forall2 phases_order groups os -> interleaving os o -> admissible (Groups groups) o.

(** ** Effect on the particles *)
(** Particle data by cell and layer, of one property or a tuple of all.  A pair
    kernel computes new data for its two particles from their data. *)
Section Effect.
  Context {V : Type} (kernel : nat -> V -> V -> V * V).
  Definition apply_pair (st : nat -> nat -> V) (p : nat * (nat * nat)) : nat -> nat -> V :=
    let '(c, (i, j)) := p in
    let r := kernel c (st c i) (st c j) in
    fun c' l => if (c' =? c) && (l =? i) then fst r else if (c' =? c) && (l =? j) then snd r else st c' l.
  Definition apply_pairs (ps : list (nat * (nat * nat))) (st : nat -> nat -> V) : nat -> nat -> V :=
    fold_left apply_pair ps st.
End Effect.
Definition pair_of (c : call) : nat * (nat * nat) := (c_cell c, (c_first c, c_second c)).

(** The particles that a call accesses through a list. *)
Definition uses (x : call) : list (nat * (nat * nat)) := [(c_list x, (c_cell x, c_first x)); (c_list x, (c_cell x, c_second x))].

(** The pairs of a sequence of pushes to the cells [first .. last), in the order
    pushed, each with the smaller layer first. *)
Definition in_cells (first last : nat) (ps : list push) : list push :=
  map (fun p => (fst p, ordered_pair (snd p))) (filter (fun p => (first <=? fst p) && (fst p <? last)) ps).
