(** Model of the version counters that decide when the selection of a sub-group is
    rebuilt.  The contents of a property, the structure of the group (number of
    cells, number of particles per cell) and selections are abstract: how a
    selection is computed is modelled in [SubGroup_Model]. *)
From Coq Require Import List Arith Bool.
Import ListNotations.
From Verif Require Import Base.

(** One entry of ParticleGroup::particle_dat_versions together with the contents of
    the property (include/neso_particles/particle_group.hpp L244-247).  The counters
    are int64 in the code; wrapping around is not modelled. *)
Record dat (V : Type) := mk_dat { val : V; ver : nat; always : bool }.
Arguments mk_dat {V}. Arguments val {V}. Arguments ver {V}. Arguments always {V}.

(** A selector with the ParticleSubGroup that owns it
    (particle_sub_group/sub_group_selector_base.hpp L91-104,
    particle_sub_group/particle_sub_group_base.hpp L36-48).
    [deps]: particle_dat_versions, the properties it depends on with the versions
    last seen; [gseen]: particle_group_version.
    [parents]: the sub-groups it is made from, by number; none for the whole group.
    [run t g vals passes]: the selection its [create] computes from the structure
    [g], the values [vals] of the properties in [deps] and the selections of the
    parents in each of the loops over them ([passes], see [nloops]); [t] stands for
    everything that may differ between two executions, e.g. the order of atomics.
    [nloops]: how often [create] brings the parents up to date and reads them (2 for
    the kernel selectors and the partitioner, 1 for the others).
    [view]: a sub-group made by particle_group_partition has no storage of its own:
    it reads the storage of the partitioner (node q) through f. *)
Record node (V G Sel : Type) := mk_node {
  deps : list (nat * nat);
  gseen : nat;
  parents : list nat;
  nloops : nat;
  run : nat -> G -> list V -> list (list Sel) -> option Sel;
  view : option (nat * (Sel -> Sel));
  static : bool;
  built : option Sel
}.
Arguments mk_node {V G Sel}. Arguments deps {V G Sel}. Arguments gseen {V G Sel}. Arguments parents {V G Sel}.
Arguments nloops {V G Sel}. Arguments run {V G Sel}. Arguments view {V G Sel}. Arguments static {V G Sel}. Arguments built {V G Sel}.

Record state (V G Sel : Type) := mk_state {
  structure : G;
  gver : nat;
  dats : list (option (dat V));
  nodes : list (node V G Sel);
  clock : nat
}.
Arguments mk_state {V G Sel}. Arguments structure {V G Sel}. Arguments gver {V G Sel}. Arguments dats {V G Sel}.
Arguments nodes {V G Sel}. Arguments clock {V G Sel}.

(** The operations that change the structure of a group. *)
Inductive structural := Clear | AddParticles | RemoveParticles | GlobalMove | LocalMove | HybridMove | CellMove.

(** How often each calls invalidate_group_version (directly or in
    set_npart_cell_from_dat, include/neso_particles/particle_group.hpp L807-814):
    src/particle_group.cpp L250 (clear), L298, L444, L700, L800, L810 (add),
    include/neso_particles/particle_group_impl.hpp L33-34 (remove),
    src/particle_group.cpp L1088-1089 (global_move), L1094-1095 (local_move),
    L1105, L1116-1117 (hybrid_move), L1127-1128 (cell_move). *)
Definition bumps (k : structural) : nat :=
  match k with
  | Clear => 1
  | AddParticles => 1
  | RemoveParticles => 2
  | GlobalMove => 2
  | LocalMove => 2
  | HybridMove => 3
  | CellMove => 2
  end.

(** What a program does with a group and its sub-groups. *)
Inductive op (V G Sel : Type) :=
  (** A write with an access descriptor (CellDat::impl_get,
      include/neso_particles/containers/cell_dat.hpp L204-213) or with set_cell
      (L568-572, L600-604): callback with mode 0. *)
| Write (p : nat) (v : V)
  (** CellDat::device_ptr (L630-635): callback with mode 1. *)
| TakePointer (p : nat)
  (** A write through such a pointer: no callback. *)
| RawWrite (p : nat) (v : V)
  (** CellDat::set_value (L523-546): no callback. *)
| SetValue (p : nat) (v : V)
  (** A structural operation: new structure and contents; [touched] are the
      properties whose callback (mode 0) is called on the way, e.g. in
      set_npart_cells_host_device
      (include/neso_particles/particle_group_pointer_map.hpp L178-210). *)
| Structural (k : structural) (g : G) (contents : nat -> V) (touched : list nat)
  (** ParticleGroup::add_particle_dat and remove_particle_dat. *)
| AddProperty (p : nat) (v : V)
| RemoveProperty (p : nat)
  (** A new sub-group that reads the properties [own]. *)
| NewSubGroup (own : list nat) (ps : list nat) (loops : nat)
    (f : nat -> G -> list V -> list (list Sel) -> option Sel)
  (** A new sub-group of a partition with partitioner [q]. *)
| NewPartition (own : list nat) (q : nat) (f : Sel -> Sel)
  (** Loop over the sub-group, get_npart_local, ... *)
| Use (i : nat)
| SetStatic (i : nat) (b : bool)
| Create (i : nat).
Arguments Write {V G Sel}. Arguments TakePointer {V G Sel}. Arguments RawWrite {V G Sel}. Arguments SetValue {V G Sel}.
Arguments Structural {V G Sel}. Arguments AddProperty {V G Sel}. Arguments RemoveProperty {V G Sel}.
Arguments NewSubGroup {V G Sel}. Arguments NewPartition {V G Sel}. Arguments Use {V G Sel}.
Arguments SetStatic {V G Sel}. Arguments Create {V G Sel}.

Section Machine.
  Context {V G Sel : Type}.
  Notation state := (state V G Sel).
  Notation node := (node V G Sel).

  Definition dat_at (st : state) (p : nat) : option (dat V) := e <- rd (dats st) p ;; e.
  Definition with_dats (st : state) (ds : list (option (dat V))) : state :=
    mk_state (structure st) (gver st) ds (nodes st) (clock st).
  Definition with_nodes (st : state) (ns : list node) : state :=
    mk_state (structure st) (gver st) (dats st) ns (clock st).

  (** src/particle_group.cpp L34-64, check_validation of the properties: for each
      key [.at] fails when the property does not exist; the versions seen are
      updated. *)
  Definition check_dat (st : state) (pv : nat * nat) : option (bool * (nat * nat)) :=
    d <- dat_at st (fst pv) ;;
    Some (negb (ver d =? snd pv) || always d, (fst pv, ver d)).
  Definition check_dats (st : state) (ds : list (nat * nat)) : option (bool * list (nat * nat)) :=
    rs <- mapM (check_dat st) ds ;;
    Some (existsb fst rs, map snd rs).
  (** L66-73, check_validation of the group version. *)
  Definition check_group (st : state) (seen : nat) : bool := negb (gver st =? seen).

  (** particle_sub_group_base.cpp L128-134, is_valid. *)
  Definition is_valid (st : state) (n : node) : bool :=
    if static n then negb (check_group st (gseen n)) else true.

  Definition with_seen (n : node) (ds : list (nat * nat)) (g : nat) : node :=
    mk_node ds g (parents n) (nloops n) (run n) (view n) (static n) (built n).
  Definition with_built (n : node) (x : Sel) : node :=
    mk_node (deps n) (gseen n) (parents n) (nloops n) (run n) (view n) (static n) (Some x).
  Definition with_static (n : node) (b : bool) : node :=
    mk_node (deps n) (gseen n) (parents n) (nloops n) (run n) (view n) b (built n).

  Definition values (st : state) (n : node) : option (list V) :=
    mapM (fun pv => d <- dat_at st (fst pv) ;; Some (val d)) (deps n).

  (** The selection a loop over sub-group [i] goes over: its own, or for a
      partition what is in the storage of the partitioner. *)
  Definition visible (st : state) (i : nat) : option Sel :=
    n <- rd (nodes st) i ;;
    match view n with
    | None => built n
    | Some (q, f) => m <- rd (nodes st) q ;; option_map f (built m)
    end.

  (** One loop over the parents inside [create]: bring them up to date, read them. *)
  Definition one_pass (prepare : state -> nat -> option state) (ps : list nat) (acc : state * list (list Sel))
      : option (state * list (list Sel)) :=
    st <- foldM prepare (fst acc) ps ;;
    xs <- mapM (visible st) ps ;;
    Some (st, snd acc ++ [xs]).

  (** sub_group_selector_base.cpp L75-94, [get], with the selector's [create];
      particle_sub_group_base.cpp L48-60, create_inner. *)
  Definition create_inner (prepare : state -> nat -> option state) (st : state) (i : nat) : option state :=
    n <- rd (nodes st) i ;;
    r <- check_dats st (deps n) ;;
    if fst r || check_group st (gseen n) then
      let n1 := with_seen n (snd r) (gver st) in
      ns1 <- upd (nodes st) i n1 ;;
      rs <- foldM (fun acc (_ : nat) => one_pass prepare (parents n) acc) (with_nodes st ns1, []) (seq 0 (nloops n)) ;;
      let '(st2, passes) := rs in
      vals <- values st2 n1 ;;
      n2 <- rd (nodes st2) i ;;
      x <- run n (clock st2) (structure st2) vals passes ;;
      ns3 <- upd (nodes st2) i (with_built n2 x) ;;
      Some (mk_state (structure st2) (gver st2) (dats st2) ns3 (S (clock st2)))
    else Some st.

  (** particle_sub_group_base.cpp L136-143, create_if_required.  [fuel] bounds the
      depth of the recursion; any number above [i] is enough. *)
  Fixpoint create_if_required (fuel : nat) (st : state) (i : nat) : option state :=
    match fuel with
    | O => None
    | S fuel' =>
        n <- rd (nodes st) i ;;
        _ <- assert (is_valid st n) ;;
        if static n then Some st else create_inner (create_if_required fuel') st i
    end.

  (** include/neso_particles/particle_group.hpp L253-257, invalidate_callback_inner. *)
  Definition callback (ds : list (option (dat V))) (p : nat) (mode : bool) : option (list (option (dat V))) :=
    e <- rd ds p ;; d <- e ;; upd ds p (Some (mk_dat (val d) (S (ver d)) mode)).
  Definition set_val (ds : list (option (dat V))) (p : nat) (v : V) : option (list (option (dat V))) :=
    e <- rd ds p ;; d <- e ;; upd ds p (Some (mk_dat v (ver d) (always d))).

  (** sub_group_selector_base.cpp L32-37 and L139-152: the selector depends on its
      own properties and on those of its parents, all seen at version 0. *)
  Definition initial_deps (st : state) (own ps : list nat) : option (list (nat * nat)) :=
    ms <- mapM (rd (nodes st)) ps ;;
    Some (map (fun p => (p, 0)) (own ++ flat_map (fun m => map fst (deps m)) ms)).

  (** particle_group_partition.cpp L26-34, create_indexed: the entry of the
      partitioner. *)
  Definition partition_run (f : Sel -> Sel) (t : nat) (g : G) (vals : list V) (passes : list (list Sel)) : option Sel :=
    match passes with [[x]] => Some (f x) | _ => None end.

  Definition step (st : state) (o : op V G Sel) : option (state * option Sel) :=
    match o with
    | Write p v =>
        ds <- callback (dats st) p false ;; ds' <- set_val ds p v ;; Some (with_dats st ds', None)
    | TakePointer p => ds <- callback (dats st) p true ;; Some (with_dats st ds, None)
    | RawWrite p v => ds <- set_val (dats st) p v ;; Some (with_dats st ds, None)
    | SetValue p v => ds <- set_val (dats st) p v ;; Some (with_dats st ds, None)
    | Structural k g contents touched =>
        ds <- foldM (fun ds p => callback ds p false) (dats st) touched ;;
        let ds' := map (fun pe => option_map (fun d => mk_dat (contents (fst pe)) (ver d) (always d)) (snd pe))
                     (combine (seq 0 (length ds)) ds) in
        Some (mk_state g (gver st + bumps k) ds' (nodes st) (clock st), None)
    | AddProperty p v =>
        (* particle_group.hpp L286-303: not there yet; version 1 *)
        match dat_at st p with
        | Some _ => None
        | None =>
            ds <- (if p =? length (dats st) then Some (dats st ++ [Some (mk_dat v 1 false)])
                   else upd (dats st) p (Some (mk_dat v 1 false))) ;;
            Some (with_dats st ds, None)
        end
    | RemoveProperty p =>
        (* particle_group.hpp L279-284 *)
        _ <- dat_at st p ;; ds <- upd (dats st) p None ;; Some (with_dats st ds, None)
    | NewSubGroup own ps loops f =>
        ds <- initial_deps st own ps ;;
        Some (with_nodes st (nodes st ++ [mk_node ds 0 ps loops f None false None]), None)
    | NewPartition own q f =>
        ds <- initial_deps st own [q] ;;
        Some (with_nodes st (nodes st ++ [mk_node ds 0 [q] 1 (partition_run f) (Some (q, f)) false None]), None)
    | Use i =>
        st' <- create_if_required (S (length (nodes st))) st i ;;
        x <- visible st' i ;;
        Some (st', Some x)
    | SetStatic i b =>
        (* particle_sub_group_base.cpp L111-124 *)
        n <- rd (nodes st) i ;;
        if Bool.eqb (static n) b then Some (st, None)
        else
          st1 <- (if b then create_if_required (S (length (nodes st))) st i else Some st) ;;
          n1 <- rd (nodes st1) i ;;
          ns <- upd (nodes st1) i (with_static n1 b) ;;
          Some (with_nodes st1 ns, None)
    | Create i =>
        st' <- create_inner (create_if_required (S (length (nodes st)))) st i ;;
        Some (st', None)
    end.

  Definition history (st : state) (os : list (op V G Sel)) : option state :=
    foldM (fun st o => r <- step st o ;; Some (fst r)) st os.

  (** A group with the given structure and properties and no sub-groups:
      include/neso_particles/particle_group.hpp L286-303 and L435. *)
  Definition initial (g : G) (vs : list V) : state :=
    mk_state g 1 (map (fun v => Some (mk_dat v 1 false)) vs) [] 0.
End Machine.
