(** Removal by condition, by sub-group and by lists on the host.
    include/neso_particles/particle_remover.hpp; src/particle_group.cpp L239-251,
    L1019-1085; src/particle_sub_group/particle_sub_group_base.cpp L246-266. *)
From Coq Require Import List Arith ZArith Bool.
Import ListNotations.
From Verif Require Import Base Group_Model Compress_Model Loop_Model Loop_Spec SubGroup_Model.
Local Open Scope nat_scope.

(** device_buffers.hpp L73-91 [realloc_no_copy]: a buffer that is too small is replaced. *)
Definition realloc_no_copyZ (d : device) (k size : nat) (buf : list Z) : list Z :=
  if length buf <? size then freshZ d k size else buf.

(** particle_remover.hpp L17-22: the buffers a remover keeps between calls.  The counter
    is set before every use and is left out. *)
Record remover := mk_remover { d_remove_cells : list Z; d_remove_layers : list Z }.
(** L36-38 *)
Definition create_remover (d : device) (k : nat) : remover := mk_remover (freshZ d k 1) (freshZ d (k + 1) 1).

Section Remove.
  Context {R : Type}.
  (** The property to inspect, by its first component, REAL or INT, with the comparison [== key]
      of L68 and L98. *)
  Inductive condition := CReal (f : nat) (equals_key : R -> bool) | CInt (f : nat) (equals_key : Z -> bool).
  Definition compare_at (q : condition) (s : store R) (c l : nat) : option bool :=
    match q with
    | CReal f eq => v <- rd3 (reals s) f c l ;; Some (eq v)
    | CInt f eq => v <- rd3 (ints s) f c l ;; Some (eq v)
    end.

  (** L62-77: the kernel that counts. *)
  Definition count_item (q : condition) (s : store R) (count : nat) (w : nat * nat) : option nat :=
    b <- compare_at q s (fst w) (snd w) ;; Some (if b then count + 1 else count).
  (** L90-108: the kernel that writes the removal lists; the fetch_add is indivisible. *)
  Definition list_item (q : condition) (s : store R) (a : nat * list Z * list Z) (w : nat * nat) : option (nat * list Z * list Z) :=
    let '(count, cells, layers) := a in
    b <- compare_at q s (fst w) (snd w) ;;
    if b then
      cells' <- upd cells count (Z.of_nat (fst w)) ;;
      layers' <- upd layers count (Z.of_nat (snd w)) ;;
      Some (count + 1, cells', layers')
    else Some a.
  (** L50-115 [ParticleRemover::remove].  The loops visit every particle once, in any
      order (property C15). *)
  Definition remover_remove (d : device) (cid : nat) (q : condition) (rm : remover) (g : group R) : option (remover * group R) :=
    remove_count <- foldM (count_item q (st g)) 0 (ord d 400 (all_particles (npart_cell g))) ;;
    if 0 <? remove_count then
      let cells := realloc_no_copyZ d 401 remove_count (d_remove_cells rm) in
      let layers := realloc_no_copyZ d 402 remove_count (d_remove_layers rm) in
      a <- foldM (list_item q (st g)) (0, cells, layers) (ord d 403 (all_particles (npart_cell g))) ;;
      let '(_, cells', layers') := a in
      k_cells <- slice cells' 0 remove_count ;;
      k_layers <- slice layers' 0 remove_count ;;
      g' <- remove_particles d cid g k_cells k_layers ;;
      Some (mk_remover cells' layers', g')
    else Some (rm, g).

  (** src/particle_group.cpp L239-251 [clear]; realloc_all_dats and the tables follow the
      counts (property C12). *)
  Definition clear_group (g : group R) : group R :=
    let np := map (fun _ => 0) (npart_cell g) in
    mk_group (mk_store (trim_rows np (reals (st g))) (trim_rows np (ints (st g)))) np.

  (** particle_sub_group_base.cpp L246-266 for a selection: [d_cells] is the start of the buffer,
      [d_layers] = [d_cells + npart]. *)
  Definition cells_layers_item (m : pmap) (npart : nat) (buf : list Z) (w : nat * nat) : option (list Z) :=
    layer <- i_layer (sub_iset m) (fst w) (snd w) ;;
    px <- get_loop_linear_index (m_des m) 0 (fst w) (snd w) ;;
    buf' <- upd buf px (Z.of_nat (fst w)) ;;
    upd buf' (npart + px) (Z.of_nat layer).
  Definition dev_cells_layers (d : device) (k : nat) (s : selection) (m : pmap) (npart : nat) (buf : list Z) : option (list Z) :=
    foldM (cells_layers_item m npart) buf (ord d k (particles_of_cells (m_dn m) 0 (s_ncell s))).
  (** src/particle_group.cpp L1057-1083 for a sub-group that is up to date; [None]: the sub-group is the
      whole group.  [pooled]: the buffer from the pool. *)
  Definition remove_sub_group (d : device) (cid : nat) (pooled : list Z) (sub : option (selection * pmap)) (g : group R) : option (group R) :=
    match sub with
    | None => Some (clear_group g)
    | Some (s, m) =>
        let npart := s_npart s in
        buf <- dev_cells_layers d 410 s m npart (realloc_no_copyZ d 411 (2 * npart) pooled) ;;
        k_cells <- slice buf 0 npart ;;
        k_layers <- slice buf npart (2 * npart) ;;
        remove_particles d cid g k_cells k_layers
    end.

  (** src/particle_group.cpp L1019-1055, vectors on the host. *)
  Definition remove_listed (d : device) (cid : nat) (pooled : list Z) (npart : Z) (cells layers : list Z) (g : group R) : option (group R) :=
    if (0 <? npart)%Z then
      let n := Z.to_nat npart in
      _ <- assert (n <=? length cells) ;;
      _ <- assert (n <=? length layers) ;;
      buf <- copy_prefix cells (realloc_no_copyZ d 412 (2 * n) pooled) n ;;
      buf' <- foldM (fun m i => v <- rd layers i ;; upd m (n + i) v) buf (seq 0 n) ;;
      k_cells <- slice buf' 0 n ;;
      k_layers <- slice buf' n (2 * n) ;;
      remove_particles d cid g k_cells k_layers
    else Some g.
End Remove.
