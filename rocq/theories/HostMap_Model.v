(** Model of the particle to cell mapper for meshes that are not two-dimensional.  "host.cpp" is
    src/external_interfaces/petsc/particle_cell_mapping/dmplex_host_mapper.cpp.  REAL is [Q].  DMLocatePoints of PETSc is a
    function from a position to the number of a point of the DMPlex, negative if no cell holds the position. *)
From Coq Require Import List Arith ZArith QArith Bool.
Import ListNotations.
From Verif Require Import Base.
Local Open Scope nat_scope.

(** The three ParticleDats the mapper uses, by cell and layer; of the rank only component 1, the mapper does not touch component 0. *)
Record group := Group { g_pos : list (list (list Q)); g_cell : list (list Z); g_rank : list (list Z) }.
(** The halo mesh: DMLocatePoints on it, and map_local_lid_remote_lid, from its points to rank and cell. *)
Record halo := Halo { h_locate : list Q -> Z; h_remote : Z -> option (Z * Z) }.

(** The first cell of a loop, the number of its particles and its particles: host.cpp L26-28 and L48-52. *)
Definition chosen (g : group) (map_cell : Z) : option (nat * nat * list (nat * nat)) :=
  if (-1 <? map_cell)%Z then
    row <- rd (g_pos g) (Z.to_nat map_cell) ;;
    Some (Z.to_nat map_cell, length row, map (pair (Z.to_nat map_cell)) (seq 0 (length row)))
  else
    Some (0, list_sum (map (@length _) (g_pos g)),
          concat (map (fun c => map (pair c) (seq 0 (length (nth c (g_pos g) [])))) (seq 0 (length (g_pos g))))).
(** loop/particle_loop_index.hpp L53-58 [get_loop_linear_index]: es is the exclusive sum of the numbers of particles. *)
Definition es (g : group) (c : nat) : nat := list_sum (map (@length _) (firstn c (g_pos g))).
Definition linear_index (g : group) (starting_cell : nat) (i : nat * nat) : nat := (es g (fst i) + snd i) - es g starting_cell.

(** host.cpp L99-139: the particles that are in no local cell are looked for in the halo.  The halo vector is its blocks; its
    end, which is not set and whose results are not read, is left out. *)
Definition search_halo (ndim : nat) (hl : option halo) (pos : list Q) (not_local_found : list nat) (cells ranks : list Z) : option (list Z * list Z) :=
  match hl with
  | None => Some (cells, ranks)
  | Some h =>
    found_halo <- mapM (fun px => x <- slice pos (px * ndim) (px * ndim + ndim) ;; Some (h_locate h x)) not_local_found ;;
    foldM (fun cr qx =>
      px <- rd not_local_found qx ;;
      px_cell <- rd found_halo qx ;;
      rc <- (if (-1 <? px_cell)%Z then h_remote h px_cell else Some (-1, -1)%Z) ;;
      cells <- upd (fst cr) px (snd rc) ;;
      ranks <- upd (snd cr) px (fst rc) ;;
      Some (cells, ranks)) (cells, ranks) (seq 0 (length not_local_found))                            (* L121-136 *)
  end.

(** host.cpp L16-166 [map].  The buffers have arbitrary contents before they are written, and the loops visit the
    particles in any order.  L86-97 write every entry once, which is a map here. *)
Definition map_particles (d : device) (junk_ : nat -> Q) (ndim : nat) (rank : Z) (locate : list Q -> Z) (hl : option halo)
    (g : group) (map_cell : Z) : option group :=
  sel <- chosen g map_cell ;;
  let '(start, npart, items) := sel in
  pos <- foldM (fun buf i =>
      p <- rd2 (g_pos g) (fst i) (snd i) ;;
      foldM (fun buf dx => x <- rd p dx ;; upd buf (linear_index g start i * ndim + dx) x) buf (seq 0 ndim))
    (map junk_ (seq 0 (npart * ndim))) (ord d 0 items) ;;                                                   (* L35-46 *)
  found <- mapM (fun px => x <- slice pos (px * ndim) (px * ndim + ndim) ;; Some (locate x)) (seq 0 npart) ;;   (* L54-84 *)
  let cells := map (fun c => if (-1 <? c)%Z then c else (-1)%Z) found in                                    (* L86-97 *)
  let ranks := map (fun c => if (-1 <? c)%Z then rank else (-1)%Z) found in
  let not_local_found := filter (fun px => negb (-1 <? nth px found 0)%Z) (seq 0 npart) in
  cr <- search_halo ndim hl pos not_local_found cells ranks ;;
  dats <- foldM (fun dats i =>
      c <- rd (fst cr) (linear_index g start i) ;;
      r <- rd (snd cr) (linear_index g start i) ;;
      a <- upd2 (fst dats) (fst i) (snd i) c ;;
      b <- upd2 (snd dats) (fst i) (snd i) r ;;
      Some (a, b)) (g_cell g, g_rank g) (ord d 1 items) ;;                                                  (* L149-165 *)
  Some (Group (g_pos g) (fst dats) (snd dats)).
