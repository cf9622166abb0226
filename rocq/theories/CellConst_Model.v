(** Model of CellDatConst, include/neso_particles/containers/cell_dat_const.hpp: a
    matrix of fixed size for each cell, on the device, and how kernels and the host
    read and write it. *)
From Coq Require Import List Arith Bool.
Import ListNotations.
From Verif Require Import Base CellDat_Model.

(** cell_dat_const.hpp L573-576, L606-621: the members.  [stride] is [nrow * ncol]
    (L649). *)
Record cell_const (T : Type) := mk_cc { cc_ncells : nat; cc_nrow : nat; cc_ncol : nat; cc_data : list T }.
Arguments mk_cc {T}. Arguments cc_ncells {T}. Arguments cc_nrow {T}. Arguments cc_ncol {T}. Arguments cc_data {T}.

Section CellConst.
  Context {T : Type}.
  Definition cc_stride (x : cell_const T) : nat := cc_nrow x * cc_ncol x.
  Definition cc_with (x : cell_const T) (data : list T) : cell_const T :=
    mk_cc (cc_ncells x) (cc_nrow x) (cc_ncol x) data.

  (** memcpy(dst + doff, src + soff, n * sizeof(T)). *)
  Definition memcpy (dst : list T) (doff : nat) (src : list T) (soff n : nat) : option (list T) :=
    foldM (fun m i => v <- rd src (soff + i) ;; upd m (doff + i) v) dst (seq 0 n).

  (** L630-635 [fill]. *)
  Definition cc_fill (x : cell_const T) (v : T) : option (cell_const T) :=
    if negb (cc_nrow x =? 0) && negb (cc_ncol x =? 0) then
      data <- foldM (fun m i => upd m i v) (cc_data x) (seq 0 (cc_ncells x * cc_nrow x * cc_ncol x)) ;;
      Some (cc_with x data)
    else Some x.

  (** L647-654, the constructor: the allocation has arbitrary contents [init]. *)
  Definition cc_create (zero : T) (init : nat -> T) (ncells nrow ncol : nat) : option (cell_const T) :=
    cc_fill (mk_cc ncells nrow ncol (map init (seq 0 (ncells * nrow * ncol)))) zero.

  (** L664-666 [idx]. *)
  Definition cc_idx (x : cell_const T) (cell row col : nat) : nat := cc_stride x * cell + (cc_nrow x * col + row).

  (** L683-694 [get_cell]; the new CellData has arbitrary contents. *)
  Definition cc_get_cell (x : cell_const T) (init : nat -> T) (cell : nat) : option (celldata T) :=
    let fresh := map init (seq 0 (cc_nrow x * cc_ncol x)) in
    data <- (if (0 <? cc_nrow x) && (0 <? cc_ncol x)
             then memcpy fresh 0 (cc_data x) (cell * cc_stride x) (cc_nrow x * cc_ncol x)
             else Some fresh) ;;
    Some (mk_celldata (cc_nrow x) (cc_ncol x) data).

  (** L701-714 [set_cell]. *)
  Definition cc_set_cell (x : cell_const T) (cell : nat) (c : celldata T) : option (cell_const T) :=
    _ <- assert (cc_nrow x <=? cd_nrow c) ;;
    _ <- assert (cc_ncol x <=? cd_ncol c) ;;
    if (0 <? cc_nrow x) && (0 <? cc_ncol x)
    then data <- memcpy (cc_data x) (cell * cc_stride x) (cd_data c) 0 (cc_nrow x * cc_ncol x) ;; Some (cc_with x data)
    else Some x.

  (** L721-760 [get_all_cells]; [tmp] are the contents of the host buffer taken from
      the resource stack, grown to at least [num_elements] entries. *)
  Definition cc_get_all (x : cell_const T) (init : nat -> T) (tmp : list T) : option (list (celldata T)) :=
    let num_elements := cc_stride x * cc_ncells x in
    ptr <- (if 0 <? cc_stride x then memcpy tmp 0 (cc_data x) 0 num_elements else Some tmp) ;;
    mapM (fun cellx =>
            let fresh := map init (seq 0 (cc_nrow x * cc_ncol x)) in
            data <- (if 0 <? cc_stride x then memcpy fresh 0 ptr (cc_stride x * cellx) (cc_stride x) else Some fresh) ;;
            Some (mk_celldata (cc_nrow x) (cc_ncol x) data)) (seq 0 (cc_ncells x)).

  (** L767-797 [set_all_cells]. *)
  Definition cc_set_all (x : cell_const T) (tmp : list T) (cs : list (celldata T)) : option (cell_const T) :=
    let num_elements := cc_stride x * cc_ncells x in
    _ <- assert (length cs =? cc_ncells x) ;;
    ptr <- foldM (fun ptr cellx =>
             c <- rd cs cellx ;;
             _ <- assert (cd_nrow c =? cc_nrow x) ;;
             _ <- assert (cd_ncol c =? cc_ncol x) ;;
             memcpy ptr (cc_stride x * cellx) (cd_data c) 0 (cc_stride x)) tmp (seq 0 (cc_ncells x)) ;;
    data <- memcpy (cc_data x) 0 ptr 0 num_elements ;;
    Some (cc_with x data).

  (** L807-815 [get_value] and L825-832 [set_value]. *)
  Definition cc_get_value (x : cell_const T) (cell row col : nat) : option T :=
    rd (cc_data x) (cell * cc_stride x + col * cc_nrow x + row).
  Definition cc_set_value (x : cell_const T) (cell row col : nat) (v : T) : option (cell_const T) :=
    data <- upd (cc_data x) (cell * cc_stride x + col * cc_nrow x + row) v ;; Some (cc_with x data).

  (** What a kernel called for a particle of cell [cellx] does with its argument:
      create_kernel_arg, L222-279, points it at [ptr + cellx * stride]; [at], L51-53 and
      L68; the subscript, L54 and L69. *)
  Definition cc_kernel_read (x : cell_const T) (cellx row col : nat) : option T :=
    rd (cc_data x) (cellx * cc_stride x + (cc_nrow x * col + row)).
  Definition cc_kernel_write (x : cell_const T) (cellx row col : nat) (v : T) : option (cell_const T) :=
    data <- upd (cc_data x) (cellx * cc_stride x + (cc_nrow x * col + row)) v ;; Some (cc_with x data).
  Definition cc_kernel_read_component (x : cell_const T) (cellx component : nat) : option T :=
    rd (cc_data x) (cellx * cc_stride x + component).
  Definition cc_kernel_write_component (x : cell_const T) (cellx component : nat) (v : T) : option (cell_const T) :=
    data <- upd (cc_data x) (cellx * cc_stride x + component) v ;; Some (cc_with x data).
  (** L80-82, L94-96, L108-110: fetch_add, fetch_min and fetch_max ([op]): the old value and
      the new contents. *)
  Definition cc_fetch (op : T -> T -> T) (x : cell_const T) (cellx row col : nat) (v : T) : option (T * cell_const T) :=
    let i := cellx * cc_stride x + (cc_nrow x * col + row) in
    old <- rd (cc_data x) i ;; data <- upd (cc_data x) i (op old v) ;; Some (old, cc_with x data).

  (** The calls a history consists of. *)
  Inductive cc_call :=
  | CFill (v : T)
  | CSetValue (cell row col : nat) (v : T)
  | CSetCell (cell : nat) (c : celldata T)
  | CSetAll (tmp : list T) (cs : list (celldata T))
  | CWrite (cell row col : nat) (v : T)
  | CWriteComponent (cell component : nat) (v : T)
  | CFetch (op : T -> T -> T) (cell row col : nat) (v : T).

  Definition cc_step (x : cell_const T) (a : cc_call) : option (cell_const T) :=
    match a with
    | CFill v => cc_fill x v
    | CSetValue c r k v => cc_set_value x c r k v
    | CSetCell c d => cc_set_cell x c d
    | CSetAll tmp cs => cc_set_all x tmp cs
    | CWrite c r k v => cc_kernel_write x c r k v
    | CWriteComponent c i v => cc_kernel_write_component x c i v
    | CFetch op c r k v => p <- cc_fetch op x c r k v ;; Some (snd p)
    end.
  Definition cc_run (zero : T) (init : nat -> T) (ncells nrow ncol : nat) (h : list cc_call) : option (cell_const T) :=
    x <- cc_create zero init ncells nrow ncol ;; foldM cc_step x h.
End CellConst.
