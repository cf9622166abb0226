(** Model of CellDat (/repo/include/neso_particles/containers/cell_dat.hpp):
    rows per cell on the device, with a table of column pointers on the host and
    on the device, resized asynchronously. *)
From Coq Require Import List Arith Bool ZArith.
Import ListNotations.
From Verif Require Import Base.

(** Device memory: block [b] is [None] when it was freed.  A pointer is a block
    and an offset; [None] is the null pointer. *)
Definition ptr := option (nat * nat).
Definition heap (T : Type) := list (option (list T)).

Definition load {T} (h : heap T) (p : ptr) (i : nat) : option T :=
  bo <- p ;; blk <- rd h (fst bo) ;; l <- blk ;; rd l (snd bo + i).
Definition store {T} (h : heap T) (p : ptr) (i : nat) (v : T) : option (heap T) :=
  bo <- p ;; blk <- rd h (fst bo) ;; l <- blk ;; l' <- upd l (snd bo + i) v ;; upd h (fst bo) (Some l').
(** Pointer arithmetic; arithmetic on the null pointer gives the null pointer
    (its result is not used then). *)
Definition padd (p : ptr) (i : nat) : ptr :=
  match p with Some (b, o) => Some (b, o + i) | None => None end.
(** sycl::free: the pointer must be the start of a live block. *)
Definition release {T} (h : heap T) (p : ptr) : option (heap T) :=
  bo <- p ;; _ <- assert (snd bo =? 0) ;; blk <- rd h (fst bo) ;; _ <- blk ;; upd h (fst bo) None.
(** queue.memcpy of [n] elements within device memory. *)
Definition memcpy {T} (h : heap T) (dst src : ptr) (n : nat) : option (heap T) :=
  foldM (fun h i => v <- load h src i ;; store h dst i v) h (seq 0 n).

(** The events pushed on stack_events: L188, L195. *)
Inductive event :=
| CopyCol (dst src : ptr) (n : nat)
| CopyPtrs (cell : nat).

(** The members, cell_dat.hpp L142-155, L344-354.  [h_cells] and [d_cells] hold
    offsets into the device table of column pointers ([h_ptr_cells] and the
    contents of [d_ptr]), [d_cols] is that table.  The -1 of nrow_max and
    nrow_min is kept.  fixed_size is not a member here: [fixed] below builds the
    instances for which it is true, no other method is applied to them. *)
Record celldat (T : Type) := mk_cd {
  ncells : nat; ncol : nat;
  h_cells : list nat; d_cells : list nat;
  h_cols : list ptr; d_cols : list ptr;
  nrow : list nat; nrow_alloc : list nat;
  nrow_max : Z; nrow_min : Z;
  mem : heap T;
  stack_events : list event; stack_ptrs : list ptr }.
Arguments mk_cd {T}. Arguments ncells {T}. Arguments ncol {T}. Arguments h_cells {T}. Arguments d_cells {T}.
Arguments h_cols {T}. Arguments d_cols {T}. Arguments nrow {T}. Arguments nrow_alloc {T}.
Arguments nrow_max {T}. Arguments nrow_min {T}. Arguments mem {T}.
Arguments stack_events {T}. Arguments stack_ptrs {T}.

Section CellDat.
Context {T : Type}.

(** What the code does not determine: the contents [junk b i] of fresh memory,
    the contents of a fresh table of pointers, and how much the growth policy
    asks for (L172-173, 1.2 or 1.1 times the number of rows in floating point):
    any number. *)
Variables (junk : nat -> nat -> T) (junk_ptr : nat -> ptr) (grow : nat -> nat -> nat).

(** The constructor L380-385 with create L302-335. *)
Definition create (ncells ncol : nat) : celldat T :=
  mk_cd ncells ncol (map (fun c => c * ncol) (seq 0 ncells)) (map (fun c => c * ncol) (seq 0 ncells))
    (repeat None (ncells * ncol)) (map junk_ptr (seq 0 (ncells * ncol)))
    (repeat 0 ncells) (repeat 0 ncells) 0%Z (-1)%Z [] [] [].

Definition set_rows (s : celldat T) (nr : list nat) : celldat T :=
  mk_cd (ncells s) (ncol s) (h_cells s) (d_cells s) (h_cols s) (d_cols s) nr (nrow_alloc s)
    (-1)%Z (nrow_min s) (mem s) (stack_events s) (stack_ptrs s).

(** malloc_device: a new block. *)
Definition malloc (h : heap T) (n : nat) : ptr * heap T :=
  (Some (length h, 0), h ++ [Some (map (junk (length h)) (seq 0 n))]).

(** The reallocation, L172-197. *)
Definition realloc (s : celldat T) (cell required : nat) : option (celldat T) :=
  alloced <- rd (nrow_alloc s) cell ;;
  existing <- rd (nrow s) cell ;;
  let new_alloc := Nat.max required (grow cell required) in
  cell_ptr_old <- rd (h_cols s) (cell * ncol s) ;;
  let '(cell_ptr_new, m) := malloc (mem s) (new_alloc * ncol s) in
  cols_events <-
    foldM (fun ce colx =>
      let col_ptr_old := padd cell_ptr_old (colx * alloced) in
      let col_ptr_new := padd cell_ptr_new (colx * new_alloc) in
      let es := if 0 <? alloced then snd ce ++ [CopyCol col_ptr_new col_ptr_old existing] else snd ce in
      hc <- upd (fst ce) (cell * ncol s + colx) col_ptr_new ;;
      Some (hc, es))
      (h_cols s, stack_events s) (seq 0 (ncol s)) ;;
  na <- upd (nrow_alloc s) cell new_alloc ;;
  Some (mk_cd (ncells s) (ncol s) (h_cells s) (d_cells s) (fst cols_events) (d_cols s) (nrow s) na
          (nrow_max s) (nrow_min s) m (snd cols_events ++ [CopyPtrs cell]) (cell_ptr_old :: stack_ptrs s)).

(** set_nrow_inner, L160-202 (set_nrow, L407-416). *)
Definition set_nrow (s : celldat T) (cell required : nat) : option (celldat T) :=
  alloced <- rd (nrow_alloc s) cell ;;
  existing <- rd (nrow s) cell ;;
  if required =? existing then Some s
  else if required <? existing then
    nr <- upd (nrow s) cell required ;; Some (set_rows s nr)
  else
    s1 <- (if alloced <? required then realloc s cell required else Some s) ;;
    nr <- upd (nrow s1) cell required ;; Some (set_rows s1 nr).

(** reduce_nrow, L391-399. *)
Definition reduce_nrow (s : celldat T) (required : list nat) : option (celldat T) :=
  nr <- foldM (fun nr cx => v <- rd required cx ;; upd nr cx v) (nrow s) (seq 0 (ncells s)) ;;
  Some (set_rows s nr).

(** One event executes on the device. *)
Definition exec (s : celldat T) (e : event) : option (celldat T) :=
  match e with
  | CopyCol dst src n =>
      m <- memcpy (mem s) dst src n ;;
      Some (mk_cd (ncells s) (ncol s) (h_cells s) (d_cells s) (h_cols s) (d_cols s) (nrow s) (nrow_alloc s)
              (nrow_max s) (nrow_min s) m (stack_events s) (stack_ptrs s))
  | CopyPtrs cell =>
      off <- rd (h_cells s) cell ;;
      dc <- foldM (fun dc colx => p <- rd (h_cols s) (cell * ncol s + colx) ;; upd dc (off + colx) p)
              (d_cols s) (seq 0 (ncol s)) ;;
      Some (mk_cd (ncells s) (ncol s) (h_cells s) (d_cells s) (h_cols s) dc (nrow s) (nrow_alloc s)
              (nrow_max s) (nrow_min s) (mem s) (stack_events s) (stack_ptrs s))
  end.

Definition set_events (s : celldat T) (es : list event) : celldat T :=
  mk_cd (ncells s) (ncol s) (h_cells s) (d_cells s) (h_cols s) (d_cols s) (nrow s) (nrow_alloc s)
    (nrow_max s) (nrow_min s) (mem s) es (stack_ptrs s).

(** The device executes an outstanding event: the queue is out of order, so any
    of them; the number [i] is the choice ([i mod] the number of outstanding
    events, so that every number is a choice). *)
Definition progress (s : celldat T) (i : nat) : option (celldat T) :=
  let n := length (stack_events s) in
  if n =? 0 then Some s else
  e <- rd (stack_events s) (i mod n) ;;
  exec (set_events s (firstn (i mod n) (stack_events s) ++ skipn (S (i mod n)) (stack_events s))) e.

(** stack_events.wait(), L423: the outstanding events execute in some order,
    given by the choices [order k]. *)
Definition drain (order : nat -> nat) (s : celldat T) : option (celldat T) :=
  foldM (fun s k => progress s (order k)) s (seq 0 (length (stack_events s))).

(** wait_set_nrow, L421-432. *)
Definition wait_set_nrow (order : nat -> nat) (s : celldat T) : option (celldat T) :=
  s1 <- drain order s ;;
  m <- foldM (fun m p => match p with None => Some m | Some _ => release m p end) (mem s1) (stack_ptrs s1) ;;
  Some (mk_cd (ncells s1) (ncol s1) (h_cells s1) (d_cells s1) (h_cols s1) (d_cols s1) (nrow s1) (nrow_alloc s1)
          (nrow_max s1) (nrow_min s1) m (stack_events s1) []).

(** compute_nrow_max, L439-445: undefined when there are no cells. *)
Definition compute_nrow_max (s : celldat T) : option (celldat T) :=
  n0 <- rd (nrow s) 0 ;;
  Some (mk_cd (ncells s) (ncol s) (h_cells s) (d_cells s) (h_cols s) (d_cols s) (nrow s) (nrow_alloc s)
    (Z.of_nat (fold_left Nat.max (nrow s) n0)) (Z.of_nat (fold_left Nat.min (nrow s) n0))
    (mem s) (stack_events s) (stack_ptrs s)).
(** get_nrow_max, L452-457, and get_nrow_min, L464-469. *)
Definition get_nrow_max (s : celldat T) : option (celldat T * Z) :=
  s1 <- (if (nrow_max s <? 0)%Z then compute_nrow_max s else Some s) ;; Some (s1, nrow_max s1).
Definition get_nrow_min (s : celldat T) : option (celldat T * Z) :=
  s1 <- (if (nrow_max s <? 0)%Z then compute_nrow_max s else Some s) ;; Some (s1, nrow_min s1).

(** A kernel's access [d_ptr[cell][col][row]]. *)
Definition device_ptr (s : celldat T) (cell col : nat) : option ptr :=
  off <- rd (d_cells s) cell ;; rd (d_cols s) (off + col).
Definition device_read (s : celldat T) (cell row col : nat) : option T :=
  p <- device_ptr s cell col ;; load (mem s) p row.
Definition set_mem (s : celldat T) (m : heap T) : celldat T :=
  mk_cd (ncells s) (ncol s) (h_cells s) (d_cells s) (h_cols s) (d_cols s) (nrow s) (nrow_alloc s)
    (nrow_max s) (nrow_min s) m (stack_events s) (stack_ptrs s).
Definition device_write (s : celldat T) (cell row col : nat) (v : T) : option (celldat T) :=
  p <- device_ptr s cell col ;; m <- store (mem s) p row v ;; Some (set_mem s m).

(** get_value, L506-513, and set_value, L523-529. *)
Definition get_value (s : celldat T) (cell row col : nat) : option T :=
  p <- rd (h_cols s) (cell * ncol s + col) ;; load (mem s) p row.
Definition set_value (s : celldat T) (cell row col : nat) (v : T) : option (celldat T) :=
  p <- rd (h_cols s) (cell * ncol s + col) ;; m <- store (mem s) p row v ;; Some (set_mem s m).

(** CellDataT (cell_data.hpp L19-95): host data stored by columns.  [at_] is
    at(row, col), L90-92. *)
Record celldata := mk_celldata { cd_nrow : nat; cd_ncol : nat; cd_data : list T }.
Definition at_ (c : celldata) (row col : nat) : option T := rd (cd_data c) (col * cd_nrow c + row).

(** get_cell, L477-496: copies column by column. *)
Definition get_cell (s : celldat T) (init : nat -> T) (cell : nat) : option celldata :=
  n <- rd (nrow s) cell ;;
  data <- (if 0 <? n then
    foldM (fun data colx =>
      p <- rd (h_cols s) (cell * ncol s + colx) ;;
      foldM (fun data i => v <- load (mem s) p i ;; upd data (colx * n + i) v) data (seq 0 n))
      (map init (seq 0 (n * ncol s))) (seq 0 (ncol s))
    else Some (map init (seq 0 (n * ncol s)))) ;;
  Some (mk_celldata n (ncol s) data).

(** set_cell, L568-590. *)
Definition set_cell (s : celldat T) (cell : nat) (c : celldata) : option (celldat T) :=
  n <- rd (nrow s) cell ;;
  _ <- assert (n <=? cd_nrow c) ;;
  _ <- assert (ncol s <=? cd_ncol c) ;;
  m <- foldM (fun m colx =>
    p <- rd (h_cols s) (cell * ncol s + colx) ;;
    foldM (fun m i => v <- rd (cd_data c) (colx * cd_nrow c + i) ;; store m p i v) m (seq 0 n))
    (mem s) (if 0 <? n then seq 0 (ncol s) else []) ;;
  Some (set_mem s m).

(** What the calling code does: the methods above.  [Progress] is the device. *)
Inductive call :=
| SetNrow (cell required : nat)
| ReduceNrow (required : list nat)
| Progress (i : nat)
| Wait (order : nat -> nat)
| DeviceWrite (cell row col : nat) (v : T)
| SetValue (cell row col : nat) (v : T)
| SetCell (cell : nat) (c : celldata)
| GetNrowMax.

Definition step (s : celldat T) (c : call) : option (celldat T) :=
  match c with
  | SetNrow cell n => set_nrow s cell n
  | ReduceNrow l => reduce_nrow s l
  | Progress i => progress s i
  | Wait order => wait_set_nrow order s
  | DeviceWrite cell row col v => device_write s cell row col v
  | SetValue cell row col v => set_value s cell row col v
  | SetCell cell c => set_cell s cell c
  | GetNrowMax => r <- get_nrow_max s ;; Some (fst r)
  end.

Definition run (ncells ncol : nat) (cs : list call) : option (celldat T) :=
  foldM step (create ncells ncol) cs.

(** create_fixed_size, L247-300 (ephemeral properties): the table of pointers
    written by the kernel L271-280 with the work items in the given order
    [sched], the data of L257-260 and the host pointers of L283-296.  The result
    is (device table, host table, number of elements allocated). *)
Definition fixed (sched : list nat) (ncells ncol npart_local : nat) (h_npart_cell d_npart_cell d_npart_cell_es : list nat)
  : option (list ptr * list ptr * nat) :=
  let k_data : ptr := if 0 <? npart_local then Some (0, 0) else None in
  d <- (if 0 <? npart_local then
    foldM (fun d cellx =>
      npart_cell <- rd d_npart_cell cellx ;;
      es <- rd d_npart_cell_es cellx ;;
      let base_ptr := padd k_data (es * ncol) in
      foldM (fun d cx => upd d (cellx * ncol + cx) (padd base_ptr (cx * npart_cell))) d (seq 0 ncol))
      (map junk_ptr (seq 0 (ncells * ncol))) sched
    else Some (map junk_ptr (seq 0 (ncells * ncol)))) ;;
  h <- foldM (fun hd cellx =>
      npart_cell <- rd h_npart_cell cellx ;;
      foldM (fun hd cx =>
        if 0 <? npart_local then
          h <- upd (fst hd) (cellx * ncol + cx) (snd hd) ;; Some (h, padd (snd hd) npart_cell)
        else h <- upd (fst hd) (cellx * ncol + cx) None ;; Some (h, snd hd)) hd (seq 0 ncol))
      (repeat None (ncells * ncol), k_data) (seq 0 ncells) ;;
  Some (d, fst h, npart_local * ncol).

End CellDat.
Arguments call : clear implicits. Arguments celldata : clear implicits.
