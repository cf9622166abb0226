(** What adding particles means, independently of how it is done. *)
From Coq Require Import List Arith ZArith Permutation Bool.
Import ListNotations.
From Verif Require Import Base Group_Model Group_Spec Add_Model.

(** The entries of a list of requested cells that ask for cell [c]. *)
Definition entries_of (cells : list Z) (c : nat) : list nat :=
  filter (fun i => match nth_error cells i with Some z => (z =? Z.of_nat c)%Z | None => false end)
         (seq 0 (length cells)).

(** [layers], [np'] give every valid request of [cells] the next free layer of its
    cell: in some order of the requests of cell [c], the layers are n, n+1, ...
    where n is the old number of particles.  Requests for a cell that does not
    exist get layer -1. *)
Definition next_free_layers (np : list nat) (cells : list Z) (np' : list nat) (layers : list Z) : Prop :=
  length np' = length np /\ length layers = length cells /\
  (forall i z, nth_error cells i = Some z -> ~ (0 <= z < Z.of_nat (length np))%Z ->
     nth_error layers i = Some (-1)%Z) /\
  (forall c n, nth_error np c = Some n -> exists order,
     Permutation order (entries_of cells c) /\
     nth_error np' c = Some (n + length order) /\
     (forall k i, nth_error order k = Some i -> nth_error layers i = Some (Z.of_nat (n + k)))).

(** The values of one particle of a ParticleSet for the properties [sp]: the
    set's column major data, or zero for a property the set does not have. *)
Definition set_values {V} (zero : V) (sp : pspec) (set : pset V) (n p : nat) : list V :=
  flat_map (fun e => match pset_get set (fst e) with
                     | Some data => map (fun cx => nth (cx * n + p) data zero) (seq 0 (snd e))
                     | None => repeat zero (snd e)
                     end) sp.

(** The set has consistent sizes for the properties [sp] and [n] particles. *)
Definition set_ok {V} (sp : pspec) (set : pset V) (n : nat) : Prop :=
  forall sym nc data, In (sym, nc) sp -> pset_get set sym = Some data -> length data = nc * n.

(** The value of component [cx] of property number [j] of a particle whose
    flattened values for the properties [sp] are [vs]. *)
Definition prop_value {V} (zero : V) (sp : pspec) (vs : list V) (j cx : nat) : V :=
  nth (list_sum (map snd (firstn j sp)) + cx) vs zero.

(** A particle with properties [sp'] and values [vs] seen with the properties [sp]:
    shared properties by name, zero for those it does not have. *)
Definition convert {V} (zero : V) (sp sp' : pspec) (vs : list V) : list V :=
  flat_map (fun e => match find_sym (fst e) sp' with
                     | Some j => map (prop_value zero sp' vs j) (seq 0 (snd e))
                     | None => repeat zero (snd e)
                     end) sp.

(** Shared properties have the same number of components. *)
Definition same_ncomp (sp sp' : pspec) : Prop :=
  forall sym nc j nc', In (sym, nc) sp -> find_sym sym sp' = Some j -> nth_error sp' j = Some (sym, nc') -> nc' = nc.

(** The specification describes the components of the store. *)
Definition spec_of {V} (sp : pspec) (D : list (list (list V))) : Prop := list_sum (map snd sp) = length D.

(** Every cell [c] of [g'] has the particles it had in [g], in the same layers,
    followed by the particles [new i] for the entries [i] that ask for [c], in
    some order. *)
Definition appended {R} (g g' : group R) (cells : list Z) (new : nat -> particle R) : Prop :=
  length (npart_cell g') = length (npart_cell g) /\
  forall c, c < length (npart_cell g) -> exists old order,
    cell_particles g c = Some old /\
    Permutation order (entries_of cells c) /\
    cell_particles g' c = Some (old ++ map new order).

(** The values of row [p] of a product matrix of [n] rows for the properties [sp];
    [dflt] gives the values of the properties the matrix does not have.  The
    columns of the matrix are the components of its properties in order. *)
Definition row_values {V} (zero : V) (sp spm : pspec) (data : list V) (n p : nat)
    (dflt : nat * nat -> list V) : list V :=
  flat_map (fun e => match find_sym (fst e) spm with
                     | Some j => map (fun cx => nth ((list_sum (map snd (firstn j spm)) + cx) * n + p) data zero)
                                     (seq 0 (snd e))
                     | None => dflt e
                     end) sp.

(** The members of the sub-group: existing particles of the group [nps]. *)
Definition members_ok (nps : list nat) (cells slayers : list Z) : Prop :=
  length slayers = length cells /\
  forall i, i < length cells -> exists c l, nth_error cells i = Some (Z.of_nat c) /\
    nth_error slayers i = Some (Z.of_nat l) /\ In (c, l) (all_particles nps).

(** The cells of the products: the cell id column of the matrix if it has one,
    else the cells of the parents, else cell 0. *)
Definition product_cells {R} (cid_sym : nat) (pm : product_matrix R) (par : option (parents R)) : list Z :=
  match find_sym cid_sym (pm_specZ pm) with
  | Some j => firstn (pm_num pm) (skipn (list_sum (map snd (firstn j (pm_specZ pm))) * pm_num pm) (pm_int pm))
  | None => match par with Some p => firstn (pm_num pm) (par_cells p) | None => repeat 0%Z (pm_num pm) end
  end.

(** Sizes of the matrix. *)
Definition pm_ok {R} (spR spZ : pspec) (pm : product_matrix R) : Prop :=
  spec_contains spR (pm_specR pm) = true /\ spec_contains spZ (pm_specZ pm) = true /\
  length (pm_real pm) = list_sum (map snd (pm_specR pm)) * pm_num pm /\
  length (pm_int pm) = list_sum (map snd (pm_specZ pm)) * pm_num pm.

(** All INT properties of the matrix before the cell id have one component. *)
Definition cell_id_column_ok {R} (cid_sym : nat) (pm : product_matrix R) : Prop :=
  forall j, find_sym cid_sym (pm_specZ pm) = Some j ->
    (exists nc, nth_error (pm_specZ pm) j = Some (cid_sym, S nc)) /\
    list_sum (map snd (firstn j (pm_specZ pm))) = j.

(** The parents given to the products: for the product rows with an existing
    cell, an existing particle of the parent group. *)
Definition parents_ok {R} (spR spZ : pspec) (g : group R) (par : parents R) (pspR pspZ : pspec) (pg : group R)
    (ncell : nat) (cells : list Z) : Prop :=
  ((par_group par = None /\ pspR = spR /\ pspZ = spZ /\ pg = g) \/ par_group par = Some (pspR, pspZ, st pg)) /\
  forall i z, nth_error cells i = Some z -> (0 <= z < Z.of_nat ncell)%Z ->
    exists c l, nth_error (par_cells par) i = Some (Z.of_nat c) /\ nth_error (par_layers par) i = Some (Z.of_nat l) /\
      In (c, l) (all_particles (npart_cell pg)).

