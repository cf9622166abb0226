(** Model of src/cell_dat_move.cpp: moving particles between the cells of one
    rank ([ParticleGroup::cell_move]). *)
From Coq Require Import List Arith ZArith Bool.
Import ListNotations.
From Verif Require Import Base Group_Model Compress_Model.

Section Move.
  (** [pad]: number of ints per cache line (src/device_limits.cpp L107-113);
      [uR], [uZ] below: content of newly allocated rows. *)
  Context (d : device) (pad : nat).

  (** src/cell_dat_move.cpp L88: the cell id names a cell of this rank. *)
  Definition valid_cell (ncell : nat) (id : Z) : bool := ((0 <=? id) && (id <? Z.of_nat ncell))%Z.

  (** src/cell_dat_move.cpp L25-27: reset the counter of one cell.  The buffer
      holds [ncell] sequential counts, then the padded counters. *)
  Definition reset_item (ncell : nat) (buf : list nat) (c : nat) : option (list nat) :=
    upd buf (ncell + c * pad) 0.

  (** src/cell_dat_move.cpp L82-101 [cell_move_identify], one particle.  The
      state is (counters, k_tmp_cell_layers, error flag).  The atomic
      fetch-and-add is one indivisible step. *)
  Definition identify_item (np : list nat) (ids : list (list Z))
      (s : list nat * list Z * bool) (w : nat * nat) : option (list nat * list Z * bool) :=
    let '(buf, tmp, flag) := s in
    let '(c, l) := w in
    let ncell := length np in
    cell_on_dat <- rd2 ids c l ;;
    let ok := valid_cell ncell cell_on_dat in
    let flag' := flag || negb ok in
    if negb (Z.of_nat c =? cell_on_dat)%Z && ok then
      let a := ncell + Z.to_nat cell_on_dat * pad in
      offset_new <- rd buf a ;;
      buf' <- upd buf a (offset_new + 1) ;;
      tmp' <- upd tmp (loop_linear_index np c l) (Z.of_nat offset_new) ;;
      Some (buf', tmp', flag')
    else
      tmp' <- upd tmp (loop_linear_index np c l) (-1)%Z ;;
      Some (buf, tmp', flag').

  (** src/cell_dat_move.cpp L130-136: one cell; the state is (buffer,
      k_tmp_cell_new_npart). *)
  Definition count_item (np : list nat) (s : list nat * list nat) (c : nat)
    : option (list nat * list nat) :=
    offset_total <- rd (fst s) (length np + c * pad) ;;
    n <- rd np c ;;
    buf' <- upd (fst s) c (offset_total + n) ;;
    t' <- upd (snd s) c offset_total ;;
    Some (buf', t').

  (** The four arrays cells_old, cells_new, layers_old, layers_new. *)
  Record move_plan := mk_move_plan {
    mv_cells_old : list nat;
    mv_cells_new : list nat;
    mv_layers_old : list nat;
    mv_layers_new : list nat
  }.

  (** src/cell_dat_move.cpp L162-177 [cell_move_identify_collect], one particle. *)
  Definition collect_item (np : list nat) (ids : list (list Z)) (tmp : list Z) (es : list nat)
      (s : move_plan) (w : nat * nat) : option move_plan :=
    let '(c, l) := w in
    t <- rd tmp (loop_linear_index np c l) ;;
    if (-1 <? t)%Z then
      let offset_new := Z.to_nat t in
      cell_on_dat <- rd2 ids c l ;;
      let id := Z.to_nat cell_on_dat in
      e <- rd es id ;;
      n <- rd np id ;;
      let i := offset_new + e in
      co <- upd (mv_cells_old s) i c ;;
      cn <- upd (mv_cells_new s) i id ;;
      lo <- upd (mv_layers_old s) i l ;;
      ln <- upd (mv_layers_new s) i (offset_new + n) ;;
      Some (mk_move_plan co cn lo ln)
    else Some s.

  (** src/cell_dat_move.cpp L241-253 and L260-272: copy component [fst w] of
      entry [snd w]. *)
  Definition move_copy_item {V} (p : move_plan) (D : list (list (list V))) (w : nat * nat)
    : option (list (list (list V))) :=
    cell_old <- rd (mv_cells_old p) (snd w) ;;
    cell_new <- rd (mv_cells_new p) (snd w) ;;
    layer_old <- rd (mv_layers_old p) (snd w) ;;
    layer_new <- rd (mv_layers_new p) (snd w) ;;
    v <- rd3 D (fst w) cell_old layer_old ;;
    upd3 D (fst w) cell_new layer_new v.

  (** src/cell_dat_move.cpp L6-299 [CellMove::move].  [cid] is the component
      index of the cell id property.  Left out: profiling and the diagnostic
      printing of the particles with bad ids (L106-116). *)
  Definition cell_move {R} (uR : nat -> nat -> nat -> R) (uZ : nat -> nat -> nat -> Z)
      (cid : nat) (g : group R) : option (group R) :=
    let np := npart_cell g in
    let ncell := length np in
    let npart_local := list_sum np in
    ids <- rd (ints (st g)) cid ;;
    (* L20-27 *)
    buf0 <- foldM (reset_item ncell) (fresh d 100 (ncell + ncell * pad)) (ord d 100 (seq 0 ncell)) ;;
    (* L73-103 *)
    r <- foldM (identify_item np ids) (buf0, freshZ d 101 npart_local, false)
           (ord d 101 (all_particles np)) ;;
    let '(buf1, tmp, flag) := r in
    (* L105-120 *)
    _ <- assert (negb flag) ;;
    (* L126-149 *)
    cr <- foldM (count_item np) (buf1, fresh d 102 (ncell + 1)) (ord d 102 (seq 0 ncell)) ;;
    let h_npart_cell := firstn ncell (fst cr) in
    es <- exscan d 110 (ncell + 1) (snd cr) (repeat 0 (ncell + 1)) ;;
    move_count <- rd es ncell ;;
    (* L157 *)
    _ <- assert (move_count <=? npart_local) ;;
    (* L160-179 *)
    p <- foldM (collect_item np ids tmp es)
           (mk_move_plan (fresh d 103 npart_local) (fresh d 104 npart_local)
              (fresh d 105 npart_local) (fresh d 106 npart_local))
           (ord d 103 (all_particles np)) ;;
    (* L199-213 *)
    let reals0 := realloc_rows uR h_npart_cell (reals (st g)) in
    let ints0 := realloc_rows uZ h_npart_cell (ints (st g)) in
    (* L236-273 *)
    reals1 <- foldM (move_copy_item p) reals0
                (ord d 120 (list_prod (seq 0 (length reals0)) (seq 0 move_count))) ;;
    ints1 <- foldM (move_copy_item p) ints0
               (ord d 121 (list_prod (seq 0 (length ints0)) (seq 0 move_count))) ;;
    (* L275, L286 *)
    remove_particles d cid (mk_group (mk_store reals1 ints1) h_npart_cell)
      (map Z.of_nat (firstn move_count (mv_cells_old p)))
      (map Z.of_nat (firstn move_count (mv_layers_old p))).
End Move.
