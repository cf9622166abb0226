(** The order of the degrees of freedom in an external library: DOFMapperDG.
    include/neso_particles/external_interfaces/common/dof_mapper_dg.hpp; src/external_interfaces/common/dof_mapper_dg.cpp.
    Integers do not overflow here. *)
From Coq Require Import List Arith ZArith Bool.
Import ListNotations.
From Verif Require Import Base.
Local Open Scope nat_scope.

Section Dof.
  Context {T : Type}.
  (** hpp L69-77.  [device_valid] is never set to true: the device copy of the map is made again in each call (L33-36) and needs no state. *)
  Record dofmap := mk_dofmap { num_cells_local : nat; num_dofs_per_cell : nat; map_to_index : list Z; d_dofs : option (list T) }.
  (** L5-13 *)
  Definition new_map (cells dofs : nat) : dofmap := mk_dofmap cells dofs (repeat (-1)%Z (cells * dofs)) None.
  (** L15-21 *)
  Definition index (m : dofmap) (cell dof : Z) : option nat :=
    _ <- assert ((0 <=? cell) && (cell <? Z.of_nat (num_cells_local m)))%Z ;;
    _ <- assert ((0 <=? dof) && (dof <? Z.of_nat (num_dofs_per_cell m)))%Z ;;
    Some (Z.to_nat cell * num_dofs_per_cell m + Z.to_nat dof).
  (** L23-26 *)
  Definition set_index (m : dofmap) (cell dof ix : Z) : option dofmap :=
    i <- index m cell dof ;; l <- upd (map_to_index m) i ix ;; Some (mk_dofmap (num_cells_local m) (num_dofs_per_cell m) l (d_dofs m)).
  (** L28-30 *)
  Definition get_index (m : dofmap) (cell dof : Z) : option Z := i <- index m cell dof ;; rd (map_to_index m) i.
  (** hpp L26-28, with the value used as an address: a negative one is a failure. *)
  Definition device_get (m : dofmap) (cell dof : nat) : option nat :=
    ix <- rd (map_to_index m) (cell * num_dofs_per_cell m + dof) ;; _ <- assert (0 <=? ix)%Z ;; Some (Z.to_nat ix).
  (** hpp L39-45 *)
  Definition item_to_external (m : dofmap) (source destination : list T) (cell dof : nat) : option (list T) :=
    index_dst <- device_get m cell dof ;; v <- rd source (cell * num_dofs_per_cell m + dof) ;; upd destination index_dst v.
  (** hpp L56-62 *)
  Definition item_from_external (m : dofmap) (source destination : list T) (cell dof : nat) : option (list T) :=
    index_source <- device_get m cell dof ;; v <- rd source index_source ;; upd destination (cell * num_dofs_per_cell m + dof) v.
  Definition items (m : dofmap) : list (nat * nat) := flat_map (fun c => map (pair c) (seq 0 (num_dofs_per_cell m))) (seq 0 (num_cells_local m)).
  (** L50-53, L78-81 *)
  Definition device_buffer (m : dofmap) (junk : nat -> T) : list T :=
    match d_dofs m with Some b => b | None => map junk (seq 0 (num_cells_local m * num_dofs_per_cell m)) end.
  (** queue.memcpy of the first [n] entries. *)
  Definition copy (dst src : list T) (n : nat) : option (list T) := v <- slice src 0 n ;; _ <- assert (n <=? length dst) ;; Some (v ++ skipn n dst).
  Definition keep (m : dofmap) (b : list T) : dofmap := mk_dofmap (num_cells_local m) (num_dofs_per_cell m) (map_to_index m) (Some b).
  (** L45-73, including the wait on the event stack.  [data]: the device memory of the CellDatConst; [h]: the buffer of the caller. *)
  Definition to_external (d : device) (junk : nat -> T) (m : dofmap) (data h : list T) : option (dofmap * list T) :=
    let n := num_cells_local m * num_dofs_per_cell m in
    let k_dofs := device_buffer m junk in
    if 0 <? n then
      b <- foldM (fun b cd => item_to_external m data b (fst cd) (snd cd)) k_dofs (ord d 0 (items m)) ;;
      h' <- copy h b n ;; Some (keep m b, h')
    else Some (keep m k_dofs, h).
  (** L75-109; the memcpy of L92 has the buffer of the caller as destination. *)
  Definition from_external (d : device) (junk : nat -> T) (m : dofmap) (data h : list T) : option (dofmap * list T * list T) :=
    let n := num_cells_local m * num_dofs_per_cell m in
    let k_dofs := device_buffer m junk in
    if 0 <? n then
      h' <- copy h k_dofs n ;;
      data' <- foldM (fun b cd => item_from_external m k_dofs b (fst cd) (snd cd)) data (ord d 0 (items m)) ;;
      Some (keep m k_dofs, data', h')
    else Some (keep m k_dofs, data, h).

  (** Histories. *)
  Inductive dcall := DSet (cell dof ix : Z) | DTo (d : device) (junk : nat -> T) (data h : list T) | DFrom (d : device) (junk : nat -> T) (data h : list T).
  Definition dstep (m : dofmap) (c : dcall) : option dofmap :=
    match c with
    | DSet cell dof ix => set_index m cell dof ix
    | DTo d junk data h => r <- to_external d junk m data h ;; Some (fst r)
    | DFrom d junk data h => r <- from_external d junk m data h ;; Some (fst (fst r))
    end.
  Definition history (cells dofs : nat) (cs : list dcall) : option dofmap := foldM dstep (new_map cells dofs) cs.
End Dof.
Arguments dofmap : clear implicits. Arguments dcall : clear implicits.
