(** Model of the lists of pairs of particles and of the loop over them:
    src/pair_loop/cellwise_pair_list_host.cpp,
    src/pair_loop/cellwise_pair_list_simple.cpp,
    include/neso_particles/pair_loop/cellwise_pair_list.hpp and
    include/neso_particles/pair_loop/particle_pair_loop_cellwise_pair_list.hpp.

    Simplifications: cells, layers and counts are [nat] ([int] and [INT] in the
    code, no overflow, negative cells are rejected by the same assertions);
    [max_pair_count], [max_wave_count] and [pair_count] are [Z] since the code
    uses -1.  Events are waited for before the data is used, as in the code, so
    copies on the queue take place where they are issued. *)
From Coq Require Import List Arith ZArith Bool.
Import ListNotations.
From Verif Require Import Base Scan_Model Group_Model.

(** ** std::map *)
Definition map_find {K V} (eqb : K -> K -> bool) (m : list (K * V)) (k : K) : option V :=
  match find (fun e => eqb k (fst e)) m with Some e => Some (snd e) | None => None end.
(** [m[k] = v]. *)
Fixpoint map_put {K V} (eqb : K -> K -> bool) (m : list (K * V)) (k : K) (v : V) : list (K * V) :=
  match m with
  | [] => [(k, v)]
  | e :: m' => if eqb k (fst e) then (k, v) :: m' else e :: map_put eqb m' k v
  end.
Definition key2_eqb (a b : nat * nat) : bool := (fst a =? fst b) && (snd a =? snd b).

(** ** CellwisePairListHost *)

(** cellwise_pair_list_host.hpp L14-23: the waves of a cell, each a vector of
    first and a vector of second particles. *)
Definition cell_waves : Type := list (nat * (list nat * list nat)).
Definition host_map : Type := list (nat * cell_waves).

(** cellwise_pair_list_host.hpp L28-37: members. *)
Record host_list := mk_host {
  map_particles_to_wave : list ((nat * nat) * nat);
  map_wave_to_pairs : host_map
}.

(** cellwise_pair_list_host.cpp L5-6 and L38-41, construction and [clear]. *)
Definition host_empty : host_list := mk_host [] [].

(** [m[cell]]: an absent entry is created empty. *)
Definition waves_of (m : host_map) (cell : nat) : cell_waves :=
  match map_find Nat.eqb m cell with Some w => w | None => [] end.
Definition wave_of (m : cell_waves) (wave : nat) : list nat * list nat :=
  match map_find Nat.eqb m wave with Some p => p | None => ([], []) end.

Section Host.
  Context (cell_count : nat).

  (** cellwise_pair_list_host.cpp L20-27, [get_next_wave]. *)
  Definition get_next_wave (s : host_list) (cell layer : nat) : option nat :=
    _ <- assert (cell <? cell_count) ;;
    Some (match map_find key2_eqb (map_particles_to_wave s) (cell, layer) with Some w => w | None => 0 end).

  (** cellwise_pair_list_host.cpp L29-36, [set_next_wave]. *)
  Definition set_next_wave (s : host_list) (cell layer wave : nat) : option host_list :=
    _ <- assert (cell <? cell_count) ;;
    _ <- assert (wave <=? length (waves_of (map_wave_to_pairs s) cell)) ;;
    Some (mk_host (map_put key2_eqb (map_particles_to_wave s) (cell, layer) wave) (map_wave_to_pairs s)).

  (** cellwise_pair_list_host.cpp L8-18, [push_back]. *)
  Definition host_push_back (s : host_list) (cell i j : nat) : option host_list :=
    _ <- assert (cell <? cell_count) ;;
    wi <- get_next_wave s cell i ;;
    wj <- get_next_wave s cell j ;;
    let wave := Nat.max wi wj in
    let oi := if i <? j then i else j in
    let oj := if i <? j then j else i in
    let cw := waves_of (map_wave_to_pairs s) cell in
    let p := wave_of cw wave in
    let cw' := map_put Nat.eqb cw wave (fst p ++ [oi], snd p ++ [oj]) in
    let s1 := mk_host (map_particles_to_wave s) (map_put Nat.eqb (map_wave_to_pairs s) cell cw') in
    s2 <- set_next_wave s1 cell i (wave + 1) ;;
    set_next_wave s2 cell j (wave + 1).
End Host.

(** ** Device buffers, include/neso_particles/device_buffers.hpp *)

(** L72-91 [realloc_no_copy] without the optional factor: the buffer only grows,
    and a buffer of size 0 has no allocation. *)
Definition realloc_no_copy (d : device) (k size : nat) (buf : list nat) : option (list nat) :=
  if size =? 0 then Some buf
  else if length buf <? size then
    _ <- assert (0 <? length buf) ;; Some (fresh d k size)
  else Some buf.
(** L132-154 [set_async], [set]. *)
Definition buffer_set (buf data : list nat) : option (list nat) :=
  _ <- assert (length data <=? length buf) ;; Some (data ++ skipn (length data) buf).
(** L162-183 [get_async], [get]. *)
Definition buffer_get (buf data : list nat) : option (list nat) :=
  _ <- assert (length data =? length buf) ;; Some buf.
(** [std::vector::resize]. *)
Definition vector_resize (n : nat) (v : list nat) : list nat :=
  firstn n v ++ repeat 0 (n - length v).

(** ** CellwisePairListSimple *)

(** cellwise_pair_list_simple.hpp L13-37: members.  [h_wave_offsets] is filled
    and copied to the device in [set] only and is local to it in the model. *)
Record simple := mk_simple {
  h_wave_count : list nat;
  d_wave_count : list nat;
  d_wave_offsets : list nat;
  d_pair_list : list (list (list nat));   (* [cell][column][row] *)
  d_pair_counts : list nat;
  d_pair_counts_es : list nat;
  h_pair_counts : list nat;
  h_pair_counts_es : list nat;
  max_pair_count : Z;
  max_wave_count : Z;
  pair_count : Z;
  mode : nat
}.

Section Simple.
  (** The device, a number that makes the arbitrary contents of newly allocated
      memory differ between calls, and the number of cells. *)
  Context (d : device) (cell_count : nat).

  (** src/pair_loop/cellwise_pair_list_simple.cpp L221-244, [clear]. *)
  Definition zero_cells (k : nat) (m : list nat) : option (list nat) :=
    foldM (fun m c => upd m c 0) m (ord d k (seq 0 cell_count)).
  Definition clear (k : nat) (s : simple) : option simple :=
    s1 <- (if 0 <? cell_count then
      wc <- zero_cells k (d_wave_count s) ;;
      pc <- zero_cells k (d_pair_counts s) ;;
      wo <- zero_cells k (d_wave_offsets s) ;;
      Some (mk_simple (map (fun _ => 0) (h_wave_count s)) wc wo (d_pair_list s) pc (d_pair_counts_es s)
              (map (fun _ => 0) (h_pair_counts s)) (h_pair_counts_es s) (max_pair_count s)
              (max_wave_count s) (pair_count s) (mode s))
    else Some s) ;;
    Some (mk_simple (h_wave_count s1) (d_wave_count s1) (d_wave_offsets s1) (d_pair_list s1) (d_pair_counts s1)
            (d_pair_counts_es s1) (h_pair_counts s1) (h_pair_counts_es s1) (-1) (-1) (-1) 0).

  (** cellwise_pair_list_simple.cpp L6-20, the constructor. *)
  Definition create (k : nat) : option simple :=
    clear k (mk_simple (repeat 0 cell_count) (fresh d k cell_count) (fresh d (k + 1) cell_count)
               (repeat [[]; []] cell_count) (fresh d (k + 2) cell_count) (fresh d (k + 3) cell_count)
               (repeat 0 cell_count) [] (-1) (-1) (-1) 0).

  (** [CellDat::set_nrow] of one cell of the two-column pair list: rows are kept,
      new rows have arbitrary contents (property C32). *)
  Definition set_nrow (k : nat) (cell nrow : nat) (l : list (list (list nat))) : option (list (list (list nat))) :=
    cols <- rd l cell ;;
    upd l cell (mapi (fun f col => resize (fun i => Z.to_nat (junk d (k + f) i)) nrow col) cols).
  (** [d_pair_list->nrow[cx]]. *)
  Definition nrow (l : list (list (list nat))) (cell : nat) : option nat :=
    cols <- rd l cell ;; col <- rd cols 0 ;; Some (length col).

  (** cellwise_pair_list_simple.cpp L36-46: the rows of the new pairs; the state
      is (layers, h_pair_counts, max_pair_count). *)
  Definition push_layers (c counts : list nat) : option (list nat * list nat * Z) :=
    foldM (fun '(layers, counts, mx) cx =>
        _ <- assert (cx <? cell_count) ;;
        n <- rd counts cx ;;
        counts' <- upd counts cx (n + 1) ;;
        Some (layers ++ [n], counts', Z.max mx (Z.of_nat (n + 1))))
      ([], counts, -1)%Z c.

  (** cellwise_pair_list_simple.cpp L48-54: grow the rows of each cell. *)
  Definition push_rows (k : nat) (counts : list nat) (l : list (list (list nat))) : option (list (list (list nat))) :=
    foldM (fun l cx =>
        current <- nrow l cx ;;
        required <- rd counts cx ;;
        if current <? required then set_nrow k cx required l else Some l)
      l (seq 0 cell_count).

  (** cellwise_pair_list_simple.cpp L69-78: the kernel that stores the pairs. *)
  Definition push_item (c i j layers : list nat) (l : list (list (list nat))) (idx : nat) : option (list (list (list nat))) :=
    tc <- rd c idx ;;
    ti <- rd i idx ;;
    tj <- rd j idx ;;
    tlayer <- rd layers idx ;;
    l1 <- upd3 l tc 0 tlayer ti ;;
    upd3 l1 tc 1 tlayer tj.

  (** cellwise_pair_list_simple.cpp L22-124, [push_back]. *)
  Definition push_back (k : nat) (s : simple) (c i j : list nat) : option simple :=
    _ <- assert ((mode s =? 0) || (mode s =? 1)) ;;
    let n := length c in
    _ <- assert (n =? length i) ;;
    _ <- assert (n =? length j) ;;
    if n =? 0 then
      Some (mk_simple (h_wave_count s) (d_wave_count s) (d_wave_offsets s) (d_pair_list s) (d_pair_counts s)
              (d_pair_counts_es s) (h_pair_counts s) (h_pair_counts_es s) (max_pair_count s)
              (max_wave_count s) (pair_count s) 1)
    else
      hc <- buffer_get (d_pair_counts s) (h_pair_counts s) ;;
      r <- push_layers c hc ;;
      let '(layers, hc', mx) := r in
      pl <- push_rows k hc' (d_pair_list s) ;;
      pl' <- foldM (push_item c i j layers) pl (ord d (k + 2) (seq 0 n)) ;;
      dc <- buffer_set (d_pair_counts s) hc' ;;
      counts <- foldM (fun m ix => v <- rd dc ix ;; upd m ix v) (fresh d (k + 3) cell_count)
                  (ord d (k + 3) (seq 0 cell_count)) ;;
      es <- joint_exclusive_scan1 Nat.add 0 (Z.to_nat (junk d (k + 4) 0)) cell_count counts (d_pair_counts_es s) ;;
      last_cell <- sub_ cell_count 1 ;;
      last_es_count <- rd es last_cell ;;
      last_count <- rd hc' last_cell ;;
      dw <- foldM (fun m cx => upd m cx 1) (d_wave_count s) (seq 0 cell_count) ;;
      Some (mk_simple (map (fun _ => 1) (h_wave_count s)) dw (d_wave_offsets s) pl' dc es hc' (h_pair_counts_es s)
              mx 1 (Z.of_nat (last_es_count + last_count)) 1).

  (** cellwise_pair_list_simple.cpp L130-138: number of waves of each cell. *)
  Definition set_wave_counts (m : host_map) (h : list nat) : option (list nat * nat) :=
    foldM (fun '(h, mx) cellx =>
        let w := length (waves_of m cellx) in
        h' <- upd h cellx w ;; Some (h', Nat.max mx w))
      (h, 0) (seq 0 cell_count).

  (** cellwise_pair_list_simple.cpp L160-181: the tables of one cell; the state is
      (pair counts, wave offsets, linear offsets, linear offset, pair list). *)
  Definition set_tables_cell (k : nat) (m : host_map)
      (st : list nat * list nat * list nat * nat * list (list (list nat))) (cellx : nat)
    : option (list nat * list nat * list nat * nat * list (list (list nat))) :=
    let '(pc, wo, es, linear_offset, pl) := st in
    r <- foldM (fun '(pc, wo, es, linear_offset, num_pairs) wavex =>
           w <- map_find Nat.eqb (waves_of m cellx) wavex ;;
           let num_pairs_wave := length (fst w) in
           pc' <- upd pc (wavex * cell_count + cellx) num_pairs_wave ;;
           wo' <- upd wo (wavex * cell_count + cellx) num_pairs ;;
           es' <- upd es (wavex * cell_count + cellx) linear_offset ;;
           Some (pc', wo', es', linear_offset + num_pairs_wave, num_pairs + num_pairs_wave))
         (pc, wo, es, linear_offset, 0) (seq 0 (length (waves_of m cellx))) ;;
    let '(pc', wo', es', linear_offset', num_pairs) := r in
    pl' <- (if num_pairs =? 0 then Some pl else set_nrow k cellx num_pairs pl) ;;
    Some (pc', wo', es', linear_offset', pl').

  (** [memcpy] to a column of the pair list of a cell, from row [first]. *)
  Definition copy_column (cell col first : nat) (src : list nat) (l : list (list (list nat))) : option (list (list (list nat))) :=
    foldM (fun l ix => v <- rd src ix ;; upd3 l cell col (first + ix) v) l (seq 0 (length src)).

  (** cellwise_pair_list_simple.cpp L199-215: copy the pairs of one cell; the
      state is (pair list, max_pair_count, pair_count). *)
  Definition set_pairs_cell (m : host_map) (st : list (list (list nat)) * nat * nat) (cellx : nat)
    : option (list (list (list nat)) * nat * nat) :=
    let '(pl, mx, total) := st in
    r <- foldM (fun '(pl, mx, total, num_pairs) wavex =>
           w <- map_find Nat.eqb (waves_of m cellx) wavex ;;
           let num_pairs_wave := length (fst w) in
           r <- (if num_pairs_wave =? 0 then Some (pl, mx, total)
                 else
                   pl1 <- copy_column cellx 0 num_pairs (fst w) pl ;;
                   (* the number of bytes copied is that of the first particles *)
                   _ <- assert (num_pairs_wave <=? length (snd w)) ;;
                   pl2 <- copy_column cellx 1 num_pairs (firstn num_pairs_wave (snd w)) pl1 ;;
                   Some (pl2, Nat.max mx num_pairs_wave, total + num_pairs_wave)) ;;
           Some (r, num_pairs + num_pairs_wave))
         (pl, mx, total, 0) (seq 0 (length (waves_of m cellx))) ;;
    Some (fst r).

  (** cellwise_pair_list_simple.cpp L126-219, [set]. *)
  Definition set (k : nat) (s : simple) (host_cell_count : nat) (m : host_map) : option simple :=
    _ <- assert (cell_count =? host_cell_count) ;;
    r <- set_wave_counts m (h_wave_count s) ;;
    let '(hw, mw) := r in
    dw <- buffer_set (d_wave_count s) hw ;;
    let size := mw * cell_count in
    dwo <- realloc_no_copy d k size (d_wave_offsets s) ;;
    dpc <- realloc_no_copy d (k + 1) size (d_pair_counts s) ;;
    des <- realloc_no_copy d (k + 2) size (d_pair_counts_es s) ;;
    t <- foldM (set_tables_cell (k + 3) m)
           (repeat 0 size, repeat 0 size, vector_resize size (h_pair_counts_es s), 0, d_pair_list s)
           (seq 0 cell_count) ;;
    let '(pc, wo, es, linear_offset, pl) := t in
    dwo' <- buffer_set dwo wo ;;
    dpc' <- buffer_set dpc pc ;;
    des' <- buffer_set des es ;;
    q <- foldM (set_pairs_cell m) (pl, 0, 0) (seq 0 cell_count) ;;
    let '(pl', mx, total) := q in
    Some (mk_simple hw dw dwo' pl' dpc' des' pc es (Z.of_nat mx) (Z.of_nat mw) (Z.of_nat total) (mode s)).

  (** cellwise_pair_list_simple.cpp L262-288, [get_host_pair_list]: cell by cell
      and wave by wave the pairs.  [get_cell] copies the rows (property C32).  In
      the code a cell or wave without pairs has no entry in the returned map;
      here it has an empty list. *)
  Definition get_host_pair_list (s : simple) : option (list (list (list (nat * nat)))) :=
    mapM (fun cx =>
      wave_count <- rd (h_wave_count s) cx ;;
      r <- foldM (fun '(out, index) wavex =>
             n <- rd (h_pair_counts s) (wavex * cell_count + cx) ;;
             ps <- mapM (fun px =>
                     i <- rd3 (d_pair_list s) cx 0 (index + px) ;;
                     j <- rd3 (d_pair_list s) cx 1 (index + px) ;;
                     Some (i, j)) (seq 0 n) ;;
             Some (out ++ [ps], index + n))
           ([], 0) (seq 0 wave_count) ;;
      Some (fst r)) (seq 0 cell_count).

  (** ** CellwisePairListDevice, cellwise_pair_list.hpp L36-90 *)
  Definition get_num_waves (s : simple) (cell : nat) : option nat := rd (d_wave_count s) cell.
  Definition get_num_pairs (s : simple) (wave cell : nat) : option nat :=
    rd (d_pair_counts s) (wave * cell_count + cell).
  Definition get_pair_linear_index (s : simple) (wave cell pair_index : nat) : option nat :=
    e <- rd (d_pair_counts_es s) (wave * cell_count + cell) ;; Some (e + pair_index).
  Definition get_particle_index (col : nat) (s : simple) (wave cell pair_index : nat) : option nat :=
    offset <- rd (d_wave_offsets s) (wave * cell_count + cell) ;;
    rd3 (d_pair_list s) cell col (offset + pair_index).

  (** ** ParticlePairLoopCellwisePairList *)

  (** What the kernel is called with: list, cell, wave, the layers of the two
      particles and the linear index of the pair
      (particle_pair_loop_cellwise_pair_list.hpp L168-213). *)
  Record call := mk_call {
    c_list : nat; c_cell : nat; c_wave : nat; c_first : nat; c_second : nat; c_index : Z
  }.

  (** particle_pair_loop_cellwise_pair_list.hpp L165-213: the pairs of a wave that
      one work item executes, in its order. *)
  Definition wave_calls (local_size : nat) (offset_list : Z) (s : simple) (index_list index_cell wavex local_id : nat)
    : option (list call) :=
    num_pairs <- get_num_pairs s wavex index_cell ;;
    mapM (fun index_pair =>
        offset_cell <- get_pair_linear_index s wavex index_cell index_pair ;;
        a <- get_particle_index 0 s wavex index_cell index_pair ;;
        b <- get_particle_index 1 s wavex index_cell index_pair ;;
        Some (mk_call index_list index_cell wavex a b (offset_list + Z.of_nat offset_cell)))
      (for_loop local_id num_pairs local_size).

  (** particle_pair_loop_cellwise_pair_list.hpp L107-122: largest pair count,
      offsets of the lists and largest wave count. *)
  Definition loop_prepare (lists : list simple) : Z * list Z * Z :=
    let '(mp, es, total, mw) :=
      fold_left (fun '(mp, es, total, mw) s =>
          (Z.max mp (max_pair_count s), es ++ [total], (total + pair_count s)%Z, Z.max mw (max_wave_count s)))
        lists (0, [], 0, 0)%Z in
    (mp, es, mw).

  (** particle_pair_loop_cellwise_pair_list.hpp L147-218, on a CPU device or with
      one wave: one kernel per wave over all cells [cell_start .. cell_end), lists
      and local ids; each kernel finishes before the next one starts.  The result
      is the list of calls of each kernel, in the order the scheduler chose for
      its work items (the calls of one item stay in order). *)
  Definition loop_by_kernel (k : nat) (local_size : nat) (lists : list simple) (es : list Z) (max_wave : nat)
      (cell_start cell_end : nat) : option (list (list call)) :=
    mapM (fun wavex =>
        cs <- mapM (fun '(index_cell, (index_list, local_id)) =>
                s <- rd lists index_list ;;
                offset_list <- rd es index_list ;;
                wave_count <- get_num_waves s index_cell ;;
                if wavex <? wave_count then wave_calls local_size offset_list s index_list index_cell wavex local_id
                else Some [])
              (ord d (k + wavex)
                 (list_prod (seq cell_start (cell_end - cell_start))
                    (list_prod (seq 0 (length lists)) (seq 0 local_size)))) ;;
        Some (concat cs))
      (seq 0 max_wave).

  (** particle_pair_loop_cellwise_pair_list.hpp L220-311: one kernel, one work
      group per cell and list, a group barrier after each wave.  The result is,
      for each work group, the calls of each wave. *)
  Definition loop_by_barrier (k : nat) (local_size : nat) (lists : list simple) (es : list Z)
      (cell_start cell_end : nat) : option (list (list (list call))) :=
    mapM (fun '(index_cell, index_list) =>
        s <- rd lists index_list ;;
        offset_list <- rd es index_list ;;
        wave_count <- get_num_waves s index_cell ;;
        mapM (fun wavex =>
            cs <- mapM (wave_calls local_size offset_list s index_list index_cell wavex)
                    (ord d (k + wavex) (seq 0 local_size)) ;;
            Some (concat cs)) (seq 0 wave_count))
      (list_prod (seq cell_start (cell_end - cell_start)) (seq 0 (length lists))).

  (** particle_pair_loop_cellwise_pair_list.hpp L101-313, [submit] on a CPU
      device ([cpu = true]) or another one.  The result lists the phases: the
      calls of one phase are concurrent.  With barriers, work groups proceed
      independently of each other; [Groups] keeps them apart. *)
  Inductive execution := Kernels (phases : list (list call)) | Groups (groups : list (list (list call))).

  Definition pair_loop (k local_size : nat) (cpu : bool) (lists : list simple) (cell_start cell_end : nat)
    : option execution :=
    let '(mp, es, mw) := loop_prepare lists in
    if ((0 <? mp)%Z && (0 <? length lists) && (cell_start <? cell_end))%bool then
      if cpu || (mw =? 1)%Z then
        p <- loop_by_kernel k local_size lists es (Z.to_nat mw) cell_start cell_end ;; Some (Kernels p)
      else
        g <- loop_by_barrier k local_size lists es cell_start cell_end ;; Some (Groups g)
    else Some (Kernels []).
End Simple.
