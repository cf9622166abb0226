(** Model of the containers that hold particles outside a group:
    src/particle_set.cpp (ParticleSet), src/containers/particle_set_device.cpp,
    include/neso_particles/containers/particle_set_device.hpp,
    product_matrix.hpp (the same layout, a derived class),
    descendant_products.hpp/.cpp, and ParticleGroup::get_particles
    (src/particle_group.cpp L137-234, L1154-1197), and
    ParticleSubGroup::get_particles (src/particle_sub_group/
    particle_sub_group_base.cpp L165-239).

    REAL and INT data are handled by the same code with separate tables; the
    definitions below are for one value type [V] and the containers pair them.
    int and size_t are unbounded. *)
From Coq Require Import List Arith ZArith Bool.
Import ListNotations.
From Verif Require Import Base Group_Model Add_Model.

(** [std::map::operator[] = x], with names as keys. *)
Fixpoint put {X} (k : nat) (x : X) (m : list (nat * X)) : list (nat * X) :=
  match m with
  | [] => [(k, x)]
  | (k', y) :: m' => if k =? k' then (k, x) :: m' else (k', y) :: put k x m'
  end.
(** [std::map::find]. *)
Definition look {X} (m : list (nat * X)) (k : nat) : option X := option_map snd (find (fun e => k =? fst e) m).

(** [memcpy(dst + off, src, n)] of whole elements between different buffers. *)
Definition blit {V} (dst : list V) (off : nat) (src : list V) : option (list V) :=
  foldM (fun m i => v <- rd src i ;; upd m (off + i) v) dst (seq 0 (length src)).

(** ** ParticleSet, the tables of one value type: src/particle_set.cpp *)
(** include/neso_particles/particle_set.hpp L29-32: values_* and ncomp_*. *)
Record hset (V : Type) := mk_hset { hs_vals : pset V; hs_ncomp : list (nat * nat) }.
Arguments mk_hset {V}. Arguments hs_vals {V}. Arguments hs_ncomp {V}.

Section HostSet.
Context {V : Type} (zero : V) (npart : nat).

(** L16-29, the constructor. *)
Definition hs_create (sp : pspec) : hset V :=
  fold_left (fun s e => mk_hset (put (fst e) (repeat zero (npart * snd e)) (hs_vals s))
                                (put (fst e) (snd e) (hs_ncomp s))) sp (mk_hset [] []).

(** L70-76 [contains]. *)
Definition hs_contains (s : hset V) (sym : nat) : bool :=
  match look (hs_vals s) sym with Some _ => true | None => false end.

(** L41-53 [at], as a value and as an assignment.  std::vector::at throws outside
    the vector. *)
Definition hs_at (s : hset V) (sym particle comp : nat) : option V :=
  v <- look (hs_vals s) sym ;; rd v (comp * npart + particle).
Definition hs_write (s : hset V) (sym particle comp : nat) (x : V) : option (hset V) :=
  v <- look (hs_vals s) sym ;;
  v' <- upd v (comp * npart + particle) x ;;
  Some (mk_hset (put sym v' (hs_vals s)) (hs_ncomp s)).

(** L78-102 [set(sym, component, values)]; the component is an int. *)
Definition hs_set_column (s : hset V) (sym : nat) (comp : Z) (values : list V) : option (hset V) :=
  v <- look (hs_vals s) sym ;;
  _ <- assert (length values =? npart) ;;
  nc <- look (hs_ncomp s) sym ;;
  _ <- assert ((0 <=? comp) && (comp <? Z.of_nat nc))%Z ;;
  v' <- blit v (Z.to_nat comp * npart) values ;;
  Some (mk_hset (put sym v' (hs_vals s)) (hs_ncomp s)).

(** L107-127 [set(ParticleSet)], one table.  The comparison of the numbers of
    particles (L105) is in [ps_set]. *)
Definition hs_set (s other : hset V) : option (hset V) :=
  foldM (fun s e =>
    let sym := fst e in
    match look (hs_vals other) sym with
    | None => Some s
    | Some src =>
        ncomp <- look (hs_ncomp other) sym ;;
        nc <- look (hs_ncomp s) sym ;;
        _ <- assert (ncomp =? nc) ;;
        chunk <- slice src 0 (npart * ncomp) ;;
        v <- look (hs_vals s) sym ;;
        v' <- blit v 0 chunk ;;
        Some (mk_hset (put sym v' (hs_vals s)) (hs_ncomp s))
    end) s (hs_vals s).
End HostSet.

(** A ParticleSet. *)
Record particle_set (R : Type) := mk_ps { ps_n : nat; ps_real : hset R; ps_int : hset Z }.
Arguments mk_ps {R}. Arguments ps_n {R}. Arguments ps_real {R}. Arguments ps_int {R}.

Definition ps_create {R} (zeroR : R) (n : nat) (spR spZ : pspec) : particle_set R :=
  mk_ps n (hs_create zeroR n spR) (hs_create 0%Z n spZ).
(** L104-131. *)
Definition ps_set {R} (s other : particle_set R) : option (particle_set R) :=
  _ <- assert (ps_n other =? ps_n s) ;;
  i <- hs_set (ps_n s) (ps_int s) (ps_int other) ;;
  r <- hs_set (ps_n s) (ps_real s) (ps_real other) ;;
  Some (mk_ps (ps_n s) r i).

(** ** ParticleSetDevice and ProductMatrix, the matrix of one value type *)
(** std::exclusive_scan (src/containers/particle_set_device.cpp L93-94). *)
Fixpoint exclusive_scan (init : nat) (l : list nat) : list nat :=
  match l with
  | [] => []
  | x :: l' => init :: exclusive_scan (init + x) l'
  end.

(** The device buffer d_data_* and the table default_values_* of the
    specification (particle_set_device.hpp L288-291), latest setting first. *)
Record matrix (V : Type) := mk_matrix { data : list V; defaults : list (nat * nat * V) }.
Arguments mk_matrix {V}. Arguments data {V}. Arguments defaults {V}.

Section Matrix.
Context {V : Type} (d : device) (junkV : nat -> V) (zero : V) (plus : V -> V -> V) (sp : pspec).

(** L91-98: dh_offsets_*. *)
Definition offsets : list nat := exclusive_scan 0 (map snd sp).
(** L79-86: a buffer of one element. *)
Definition matrix_create : matrix V := mk_matrix [junkV 0] [].

(** L33-41 [set_default_value]. *)
Definition set_default_value (m : matrix V) (sym comp : nat) (v : V) : matrix V :=
  mk_matrix (data m) ((sym, comp, v) :: defaults m).
Definition default_of (m : matrix V) (sym comp : nat) : V :=
  match find (fun e => (fst (fst e) =? sym) && (snd (fst e) =? comp)) (defaults m) with
  | Some e => snd e
  | None => zero
  end.

(** include/neso_particles/device_buffers.hpp L72-91 [realloc_no_copy] without a
    factor: a larger buffer has arbitrary contents. *)
Definition realloc_no_copy (buf : list V) (size : nat) : list V :=
  if size =? 0 then buf
  else if length buf <? size then map junkV (seq 0 size) else buf.

(** L131-143: the fills of all columns, as (address, value) pairs. *)
Definition reset_writes (m : matrix V) (n : nat) : option (list (nat * V)) :=
  ws <- mapM (fun sx =>
    e <- rd sp sx ;;
    sym_offset <- rd offsets sx ;;
    Some (flat_map (fun cx =>
            map (fun i => ((sym_offset + cx) * n + i, default_of m (fst e) cx)) (seq 0 n))
          (seq 0 (snd e)))) (seq 0 (length sp)) ;;
  Some (concat ws).
(** L118-160 [reset]: the fills run concurrently, in any order.  [k]: launch. *)
Definition matrix_reset (k : nat) (m : matrix V) (n : nat) : option (matrix V) :=
  if 0 <? n then
    let buf := realloc_no_copy (data m) (n * list_sum (map snd sp)) in
    ws <- reset_writes m n ;;
    buf' <- scatter buf (ord d k ws) ;;
    Some (mk_matrix buf' (defaults m))
  else Some m.

(** particle_set_device.hpp L64-83, L158-176, product_matrix.hpp L64-83,
    L157-175: the element addressed by at_real/at_int(row, property,
    component); Write: an assignment through the reference. *)
Definition address (n row prop comp : nat) : option nat :=
  off <- rd offsets prop ;; Some ((off + comp) * n + row).
Definition at_read (m : matrix V) (n row prop comp : nat) : option V :=
  a <- address n row prop comp ;; rd (data m) a.
Definition at_write (m : matrix V) (n row prop comp : nat) (v : V) : option (matrix V) :=
  a <- address n row prop comp ;; buf <- upd (data m) a v ;; Some (mk_matrix buf (defaults m)).
(** particle_set_device.hpp L108-133: the atomic fetch_add, returning the old
    value. *)
Definition fetch_add (m : matrix V) (n row prop comp : nat) (v : V) : option (V * matrix V) :=
  a <- address n row prop comp ;;
  old <- rd (data m) a ;;
  buf <- upd (data m) a (plus old v) ;;
  Some (old, mk_matrix buf (defaults m)).

(** L162-194 [get], one table: a copy per property. *)
Definition matrix_get (m : matrix V) (n : nat) : option (hset V) :=
  let s := hs_create zero n sp in
  if 0 <? n then
    foldM (fun s sx =>
      e <- rd sp sx ;;
      sym_offset <- rd offsets sx ;;
      chunk <- slice (data m) (sym_offset * n) (sym_offset * n + n * snd e) ;;
      v <- look (hs_vals s) (fst e) ;;
      v' <- blit v 0 chunk ;;
      Some (mk_hset (put (fst e) v' (hs_vals s)) (hs_ncomp s))) s (seq 0 (length sp))
  else Some s.

(** L199-216 [set], one table: a copy per property the ParticleSet contains. *)
Definition matrix_set (m : matrix V) (n : nat) (s : hset V) : option (matrix V) :=
  if 0 <? n then
    buf <- foldM (fun buf sx =>
      e <- rd sp sx ;;
      match look (hs_vals s) (fst e) with
      | None => Some buf
      | Some src =>
          nc <- look (hs_ncomp s) (fst e) ;;
          _ <- assert (snd e =? nc) ;;
          sym_offset <- rd offsets sx ;;
          chunk <- slice src 0 (n * snd e) ;;
          blit buf (sym_offset * n) chunk
      end) (data m) (seq 0 (length sp)) ;;
    Some (mk_matrix buf (defaults m))
  else Some m.
End Matrix.

(** ** ParticleSetDevice / ProductMatrix *)
Record device_set (R : Type) := mk_ds { ds_num : nat; ds_real : matrix R; ds_int : matrix Z }.
Arguments mk_ds {R}. Arguments ds_num {R}. Arguments ds_real {R}. Arguments ds_int {R}.

(** Calls on one of the tables, from kernels or the specification. *)
Inductive hcall (V : Type) :=
| Default (sym comp : nat) (v : V)
| Write (row prop comp : nat) (v : V)
| Add (row prop comp : nat) (v : V).
Arguments Default {V}. Arguments Write {V}. Arguments Add {V}.
Inductive dcall (R : Type) :=
| OnReal (c : hcall R)
| OnInt (c : hcall Z)
| Reset (n : Z)
| SetFrom (s : particle_set R).
Arguments OnReal {R}. Arguments OnInt {R}. Arguments Reset {R}. Arguments SetFrom {R}.

Definition hstep {V} (plus : V -> V -> V) (sp : pspec) (n : nat) (m : matrix V) (c : hcall V) : option (matrix V) :=
  match c with
  | Default sym comp v => Some (set_default_value m sym comp v)
  | Write row prop comp v => at_write sp m n row prop comp v
  | Add row prop comp v => r <- fetch_add plus sp m n row prop comp v ;; Some (snd r)
  end.

Section DeviceSet.
Context {R : Type} (d : device) (junkR : nat -> nat -> R) (junkZ : nat -> nat -> Z)
  (zeroR : R) (plusR : R -> R -> R) (spR spZ : pspec).

Definition ds_create : device_set R := mk_ds 0 (matrix_create (junkR 0)) (matrix_create (junkZ 0)).

(** L118-160, product_matrix.hpp L345-348. *)
Definition ds_reset (s : device_set R) (n : Z) : option (device_set R) :=
  _ <- assert (0 <=? n)%Z ;;
  let n := Z.to_nat n in
  r <- matrix_reset d (junkR n) zeroR spR 500 (ds_real s) n ;;
  i <- matrix_reset d (junkZ n) 0%Z spZ 501 (ds_int s) n ;;
  Some (mk_ds n r i).
(** L162-194. *)
Definition ds_get (s : device_set R) : option (particle_set R) :=
  r <- matrix_get zeroR spR (ds_real s) (ds_num s) ;;
  i <- matrix_get 0%Z spZ (ds_int s) (ds_num s) ;;
  Some (mk_ps (ds_num s) r i).
(** L196-236. *)
Definition ds_set (s : device_set R) (ps : particle_set R) : option (device_set R) :=
  _ <- assert (ds_num s =? ps_n ps) ;;
  r <- matrix_set spR (ds_real s) (ds_num s) (ps_real ps) ;;
  i <- matrix_set spZ (ds_int s) (ds_num s) (ps_int ps) ;;
  Some (mk_ds (ds_num s) r i).

Definition ds_step (s : device_set R) (c : dcall R) : option (device_set R) :=
  match c with
  | OnReal c => r <- hstep plusR spR (ds_num s) (ds_real s) c ;; Some (mk_ds (ds_num s) r (ds_int s))
  | OnInt c => i <- hstep Z.add spZ (ds_num s) (ds_int s) c ;; Some (mk_ds (ds_num s) (ds_real s) i)
  | Reset n => ds_reset s n
  | SetFrom ps => ds_set s ps
  end.
Definition ds_run (cs : list (dcall R)) : option (device_set R) := foldM ds_step ds_create cs.
End DeviceSet.

(** ** DescendantProducts: src/containers/descendant_products.cpp L25-42 *)
Record descendants (R : Type) := mk_desc {
  de_set : device_set R; de_parents : nat; de_cells : list Z; de_layers : list Z }.
Arguments mk_desc {R}. Arguments de_set {R}. Arguments de_parents {R}. Arguments de_cells {R}. Arguments de_layers {R}.
Definition desc_reset {R} (d : device) (junkR : nat -> nat -> R) (junkZ : nat -> nat -> Z) (zeroR : R)
    (spR spZ : pspec) (per_parent : nat) (s : descendants R) (num_parents : Z) : option (descendants R) :=
  _ <- assert (0 <=? num_parents)%Z ;;
  let num_parents := Z.to_nat num_parents in
  let num_products := num_parents * per_parent in
  s' <- ds_reset d junkR junkZ zeroR spR spZ (de_set s) (Z.of_nat num_products) ;;
  if 0 <? num_products then
    let minus1 := fun buf => scatter buf (ord d 502 (map (fun i => (i, (-1)%Z)) (seq 0 num_products))) in
    cells <- minus1 (realloc_no_copy (junkZ num_products) (de_cells s) num_products) ;;
    layers <- minus1 (realloc_no_copy (junkZ num_products) (de_layers s) num_products) ;;
    Some (mk_desc s' num_parents cells layers)
  else Some (mk_desc s' num_parents (de_cells s) (de_layers s)).

(** containers/descendant_products.hpp L52-58, L71-77: at_real/at_int(index,
    product, property, component), and L85-91 [set_parent].  [ll]: the loop
    linear index of the parent; (cell, layer) its position. *)
Definition desc_write {V} (sp : pspec) (m : matrix V) (num_products num_parents ll product prop comp : nat) (v : V) : option (matrix V) :=
  at_write sp m num_products (ll + product * num_parents) prop comp v.
Definition set_parent {R} (s : descendants R) (ll cell layer product : nat) : option (descendants R) :=
  let matrix_row := ll + product * de_parents s in
  cells <- upd (de_cells s) matrix_row (Z.of_nat cell) ;;
  layers <- upd (de_layers s) matrix_row (Z.of_nat layer) ;;
  Some (mk_desc (de_set s) (de_parents s) cells layers).

(** ** ParticleGroup::get_particles *)
Section GetParticles.
Context (d : device).

(** src/particle_group.cpp L164-198, one table: work item (dat, particle).  A
    negative cell or layer is an invalid pointer. *)
Definition gather_item {V} (sp : pspec) (D : list (list (list V))) (n : nat) (cells layers : list Z)
    (buf : list V) (w : nat * nat) : option (list V) :=
  cell <- rd cells (snd w) ;;
  layer <- rd layers (snd w) ;;
  _ <- assert ((0 <=? cell) && (0 <=? layer))%Z ;;
  ncomp <- rd (map snd sp) (fst w) ;;
  let ncomp_es := comp_offset sp (fst w) in
  foldM (fun buf cx =>
    v <- rd3 D (ncomp_es + cx) (Z.to_nat cell) (Z.to_nat layer) ;;
    upd buf (ncomp_es * n + (cx * n + snd w)) v) buf (seq 0 ncomp).

(** L200-223: copy into the ParticleSet made from the group's specification
    [q], which lists the same properties in the order they were added. *)
Definition unpack_set {V} (zero : V) (sp q : pspec) (n : nat) (buf : list V) : option (hset V) :=
  foldM (fun s dx =>
    e <- rd sp dx ;;
    chunk <- slice buf (comp_offset sp dx * n) (comp_offset sp dx * n + n * snd e) ;;
    v <- look (hs_vals s) (fst e) ;;
    v' <- blit v 0 chunk ;;
    Some (mk_hset (put (fst e) v' (hs_vals s)) (hs_ncomp s))) (hs_create zero n q) (seq 0 (length sp)).

Definition gather {V} (k : nat) (zero : V) (pool : list V) (junkV : nat -> V) (sp q : pspec) (D : list (list (list V))) (n : nat)
    (cells layers : list Z) : option (hset V) :=
  let buf := realloc_no_copy junkV pool (n * list_sum (map snd sp)) in
  buf' <- foldM (gather_item sp D n cells layers) buf (ord d k (list_prod (seq 0 (length sp)) (seq 0 n))) ;;
  unpack_set zero sp q n buf'.

(** L137-234.  [poolR], [poolZ]: the pooled buffers, in any state. *)
Definition get_particles_device {R} (zeroR : R) (poolR : list R) (poolZ : list Z) (junkR : nat -> R) (junkZ : nat -> Z)
    (spR spZ qR qZ : pspec) (g : group R) (n : nat) (cells layers : list Z) : option (particle_set R) :=
  if 0 <? n then
    r <- gather 510 zeroR poolR junkR spR qR (reals (st g)) n cells layers ;;
    i <- gather 511 0%Z poolZ junkZ spZ qZ (ints (st g)) n cells layers ;;
    Some (mk_ps n r i)
  else Some (ps_create zeroR 0 qR qZ).

(** L1178-1185: the checks of one request; [np]: particles per cell. *)
Definition check_request (np : list nat) (cell layer : Z) : option unit :=
  _ <- assert ((-1 <? cell) && (cell <? Z.of_nat (length np)))%Z ;;
  n <- rd np (Z.to_nat cell) ;;
  assert ((-1 <? layer) && (layer <? Z.of_nat n))%Z.

(** L1154-1197. *)
Definition get_particles {R} (zeroR : R) (poolR : list R) (poolZ : list Z) (junkR : nat -> R) (junkZ : nat -> Z)
    (spR spZ qR qZ : pspec) (g : group R) (cells layers : list Z) : option (particle_set R) :=
  _ <- assert (length cells =? length layers) ;;
  _ <- foldM (fun _ p => check_request (npart_cell g) (fst p) (snd p)) tt (combine cells layers) ;;
  get_particles_device zeroR poolR poolZ junkR junkZ spR spZ qR qZ g (length cells) cells layers.

(** particle_sub_group_base.cpp L165-239 for a sub-group that is not the whole
    group: [sel] is the selection's map from (cell, sub-group layer) to layer
    (its lengths are the h_npart_cell of the selection). *)
Definition sub_get_particles {R} (zeroR : R) (poolR : list R) (poolZ : list Z) (junkR : nat -> R) (junkZ : nat -> Z)
    (spR spZ qR qZ : pspec) (g : group R) (sel : list (list nat)) (cells layers : list Z) : option (particle_set R) :=
  _ <- assert (length cells =? length layers) ;;
  let n := length cells in
  if 0 <? n then
    _ <- foldM (fun _ p => check_request (map (@length nat) sel) (fst p) (snd p)) tt (combine cells layers) ;;
    inner <- foldM (fun buf i =>
               cell <- rd cells i ;; layer <- rd layers i ;;
               l <- rd2 sel (Z.to_nat cell) (Z.to_nat layer) ;;
               upd buf i (Z.of_nat l)) (freshZ d 512 n) (ord d 513 (seq 0 n)) ;;
    get_particles_device zeroR poolR poolZ junkR junkZ spR spZ qR qZ g n cells inner
  else Some (ps_create zeroR 0 qR qZ).
End GetParticles.
