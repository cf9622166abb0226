(** Property theorems: C04 - C07 (adding particles to a group). *)
From Coq Require Import List Arith Lia ZArith Bool Permutation.
Import ListNotations.
From Verif Require Import Base Group_Model Group_Spec Group_Proofs Compress_Props Move_Model Add_Model Add_Spec
  Add_Proofs AddGroup_Proofs AddProducts_Proofs.

(** Arbitrary contents of new rows, for the examples. *)
Definition junkR : nat -> nat -> nat -> nat := fun _ _ _ => 999.
Definition junkZ : nat -> nat -> nat -> Z := fun _ _ _ => (-999)%Z.

(** C04: for every device (schedule of the atomics), all cell counts and all
    requested cells, every valid request gets the next free layers of its cell,
    each exactly once, and requests for cells that do not exist get layer -1. *)
Theorem C04_new_layers_are_fresh_and_dense :
  forall d, device_ok d -> forall np cells layers0, length layers0 = length cells ->
  exists np' layers, get_new_layers d np cells layers0 = Some (np', layers) /\
    next_free_layers np cells np' layers.
Proof. intros. apply get_new_layers_correct; auto. Qed.
Print Assumptions C04_new_layers_are_fresh_and_dense.

Example C04_instance :
  get_new_layers C01_device [2; 0; 5] [2; 0; 2; -1; 3; 2; 0]%Z [9; 9; 9; 9; 9; 9; 9]%Z =
    Some ([4; 0; 8], [7; 3; 6; -1; -1; 5; 2]%Z).
Proof. vm_compute. reflexivity. Qed.

(** C05: adding a ParticleSet appends its particles to the cells they name, in
    the order of the set, with the values of the set and zero for the properties
    the set does not have; particles already in the group are untouched. *)
Theorem C05_add_particle_set_appends_exactly_the_set :
  forall d, device_ok d -> forall R (zeroR : R) uR uZ spR spZ cid_sym (g : group R) n setR setZ ids,
    wf_group g -> spec_of spR (reals (st g)) -> spec_of spZ (ints (st g)) ->
    set_ok spR setR n -> set_ok spZ setZ n ->
    pset_get setZ cid_sym = Some ids -> n <= length ids ->
    (forall p z, p < n -> nth_error ids p = Some z -> (0 <= z < Z.of_nat (length (npart_cell g)))%Z) ->
    exists g', add_particle_set d zeroR uR uZ spR spZ cid_sym g n setR setZ = Some g' /\ wf_group g' /\
      length (npart_cell g') = length (npart_cell g) /\
      forall c, c < length (npart_cell g) -> exists old, cell_particles g c = Some old /\
        cell_particles g' c =
          Some (old ++ map (fun p => (set_values zeroR spR setR n p, set_values 0%Z spZ setZ n p))
                           (entries_of (firstn n ids) c)).
Proof. intros. eapply add_particle_set_correct; eauto. Qed.
Print Assumptions C05_add_particle_set_appends_exactly_the_set.

(** C05, errors: a particle that names a cell which does not exist, a set without
    cell ids and a property with the wrong number of components are reported. *)
Theorem C05_bad_cell_is_reported :
  forall d R (zeroR : R) uR uZ spR spZ cid_sym (g : group R) n setR setZ ids p z,
    pset_get setZ cid_sym = Some ids -> p < n -> nth_error ids p = Some z ->
    ~ (0 <= z < Z.of_nat (length (npart_cell g)))%Z ->
    add_particle_set d zeroR uR uZ spR spZ cid_sym g n setR setZ = None.
Proof. intros. eapply add_particle_set_bad; eauto. Qed.
Print Assumptions C05_bad_cell_is_reported.

Theorem C05_wrong_number_of_components_is_reported :
  forall d R (zeroR : R) uR uZ spR spZ cid_sym (g : group R) n setR setZ, 0 < n ->
    (exists sym nc data, In (sym, nc) spR /\ pset_get setR sym = Some data /\ length data / n <> nc) \/
    (exists sym nc data, In (sym, nc) spZ /\ pset_get setZ sym = Some data /\ length data / n <> nc) ->
    add_particle_set d zeroR uR uZ spR spZ cid_sym g n setR setZ = None.
Proof. intros. eapply add_particle_set_mismatch; eauto. Qed.
Print Assumptions C05_wrong_number_of_components_is_reported.

(** A group with a 2-component REAL property (0), a REAL property (1), the cell id
    (INT property 0) and another INT property (1); 3 cells. *)
Definition C05_spR : pspec := [(0, 2); (1, 1)].
Definition C05_spZ : pspec := [(0, 1); (1, 1)].
Definition C05_group : group nat := mk_group
  (mk_store [[[10]; []; [12; 13]]; [[20]; []; [22; 23]]; [[30]; []; [32; 33]]]
     [[[0]; []; [2; 2]]; [[7]; []; [8; 9]]]%Z) [1; 0; 2].
Definition C05_setR : pset nat := [(0, [1; 2; 3; 4; 5; 6])].
Definition C05_setZ : pset Z := [(1, [70; 71; 72]%Z); (0, [2; 0; 2]%Z); (5, [1; 1; 1]%Z)].

Example C05_instance :
  exists g', add_particle_set C01_device 0 junkR junkZ C05_spR C05_spZ 0 C05_group 3 C05_setR C05_setZ = Some g' /\
    cell_particles g' 0 = Some [([10; 20; 30], [0; 7]%Z); ([2; 5; 0], [0; 71]%Z)] /\
    cell_particles g' 1 = Some [] /\
    cell_particles g' 2 = Some [([12; 22; 32], [2; 8]%Z); ([13; 23; 33], [2; 9]%Z); ([1; 4; 0], [2; 70]%Z); ([3; 6; 0], [2; 72]%Z)].
Proof. eexists. split; [vm_compute; reflexivity|]. vm_compute. auto. Qed.

Example C05_instance_hypotheses :
  wf_group C05_group /\ spec_of C05_spR (reals (st C05_group)) /\ spec_of C05_spZ (ints (st C05_group)) /\
  set_ok C05_spR C05_setR 3 /\ set_ok C05_spZ C05_setZ 3 /\
  exists ids, pset_get C05_setZ 0 = Some ids /\ 3 <= length ids /\
    (forall p z, p < 3 -> nth_error ids p = Some z -> (0 <= z < 3)%Z).
Proof.
  split; [apply wf_groupb_sound; reflexivity|]. split; [reflexivity|]. split; [reflexivity|]. split; [|split].
  - intros sym nc data [[= <- <-]|[[= <- <-]|[]]]; cbn; intros [= <-]; auto.
  - intros sym nc data [[= <- <-]|[[= <- <-]|[]]]; cbn; intros [= <-]; auto.
  - eexists. split; [reflexivity|]. split; [cbn; lia|].
    intros [|[|[|p]]] z Hp; cbn; try (intros [= <-]); lia.
Qed.

(** C06: adding another group appends to every cell the particles of that cell of
    the other group, in order: shared properties keep their values, properties
    the source does not have become zero. *)
Theorem C06_add_group_appends_every_particle :
  forall d, device_ok d -> forall R (zeroR : R) uR uZ spR spZ (g : group R) spR' spZ' gs,
    wf_group g -> wf_group gs -> length (npart_cell gs) = length (npart_cell g) ->
    spec_of spR (reals (st g)) -> spec_of spZ (ints (st g)) ->
    spec_of spR' (reals (st gs)) -> spec_of spZ' (ints (st gs)) ->
    same_ncomp spR spR' -> same_ncomp spZ spZ' ->
    exists g', add_group d zeroR uR uZ spR spZ g spR' spZ' gs = Some g' /\ wf_group g' /\
      length (npart_cell g') = length (npart_cell g) /\
      forall c, c < length (npart_cell g) -> exists old src,
        cell_particles g c = Some old /\ cell_particles gs c = Some src /\
        cell_particles g' c =
          Some (old ++ map (fun p => (convert zeroR spR spR' (fst p), convert 0%Z spZ spZ' (snd p))) src).
Proof. intros. eapply add_group_correct; eauto. Qed.
Print Assumptions C06_add_group_appends_every_particle.

(** C06: adding a sub-group of the same group duplicates exactly its members. *)
Theorem C06_add_own_sub_group_duplicates_members :
  forall d, device_ok d -> forall R (zeroR : R) uR uZ spR spZ (g : group R) cells slayers,
    wf_group g -> spec_of spR (reals (st g)) -> spec_of spZ (ints (st g)) ->
    members_ok (npart_cell g) cells slayers ->
    exists g', add_sub_group d zeroR uR uZ spR spZ g None cells slayers = Some g' /\ wf_group g' /\
      exists new, appended g g' cells new /\
        forall i c l, nth_error cells i = Some (Z.of_nat c) -> nth_error slayers i = Some (Z.of_nat l) ->
          particle_at (st g) c l = Some (new i).
Proof. intros. eapply add_sub_group_self; eauto. Qed.
Print Assumptions C06_add_own_sub_group_duplicates_members.

(** C06: adding a sub-group of another group appends exactly its members. *)
Theorem C06_add_sub_group_appends_members :
  forall d, device_ok d -> forall R (zeroR : R) uR uZ spR spZ (g : group R) spR' spZ' gs cells slayers,
    wf_group g -> wf_group gs ->
    spec_of spR (reals (st g)) -> spec_of spZ (ints (st g)) ->
    spec_of spR' (reals (st gs)) -> spec_of spZ' (ints (st gs)) ->
    same_ncomp spR spR' -> same_ncomp spZ spZ' ->
    members_ok (npart_cell gs) cells slayers ->
    exists g', add_sub_group d zeroR uR uZ spR spZ g (Some (spR', spZ', st gs)) cells slayers = Some g' /\ wf_group g' /\
      exists new, appended g g' cells new /\
        forall i c l, nth_error cells i = Some (Z.of_nat c) -> nth_error slayers i = Some (Z.of_nat l) ->
          exists p, particle_at (st gs) c l = Some p /\
            new i = (convert zeroR spR spR' (fst p), convert 0%Z spZ spZ' (snd p)).
Proof. intros. eapply add_sub_group_other; eauto. Qed.
Print Assumptions C06_add_sub_group_appends_members.

(** C06, errors: different numbers of cells, or a shared property with different
    numbers of components. *)
Theorem C06_incompatible_groups_are_reported :
  forall d R (zeroR : R) uR uZ spR spZ (g : group R) spR' spZ' gs,
    length (npart_cell g) <> length (npart_cell gs) \/
    (exists sym nc j nc', In (sym, nc) spR /\ find_sym sym spR' = Some j /\ nth_error spR' j = Some (sym, nc') /\ nc' <> nc) \/
    (exists sym nc j nc', In (sym, nc) spZ /\ find_sym sym spZ' = Some j /\ nth_error spZ' j = Some (sym, nc') /\ nc' <> nc) ->
    add_group d zeroR uR uZ spR spZ g spR' spZ' gs = None.
Proof.
  intros d R zeroR uR uZ spR spZ g spR' spZ' gs H. unfold add_group.
  destruct (Nat.eqb_spec (length (npart_cell g)) (length (npart_cell gs))) as [E|E]; [|auto]. cbn [assert obind].
  destruct H as [H|[[sym [nc [j [nc' [H1 [H2 [H3 H4]]]]]]]|[sym [nc [j [nc' [H1 [H2 [H3 H4]]]]]]]]]; [congruence| |].
  - rewrite (test_dat_bad spR spR' sym nc j nc'); auto.
  - rewrite (test_dat_bad spZ spZ' sym nc j nc'); auto. destruct (test_dat spR spR'); auto.
Qed.
Print Assumptions C06_incompatible_groups_are_reported.

(** [convert] between equal specifications is the identity: a whole particle is
    copied. *)
Theorem C06_same_properties_are_copied_unchanged :
  forall V (zero : V) sp vs, NoDup (map fst sp) -> length vs = list_sum (map snd sp) -> convert zero sp sp vs = vs.
Proof.
  intros V zero sp vs ND L. apply nth_error_ext. intros f.
  destruct (lt_dec f (list_sum (map snd sp))) as [Hf|Hf].
  - destruct (find_comp _ _ Hf) as [i [nm [nc [cx [Ei [Hcx ->]]]]]].
    apply (convert_some zero sp sp vs i nm nc i nc cx); auto. eapply find_sym_nodup; eauto.
  - transitivity (@None V); [|symmetry]; apply nth_error_None; [rewrite convert_len|]; lia.
Qed.
Print Assumptions C06_same_properties_are_copied_unchanged.

(** Source group: REAL property 1, then 0 (2 components); INT cell id only. *)
Definition C06_spR : pspec := [(1, 1); (7, 1); (0, 2)].
Definition C06_spZ : pspec := [(0, 1)].
Definition C06_source : group nat := mk_group
  (mk_store [[[1]; [2; 3]; []]; [[91]; [92; 93]; []]; [[4]; [5; 6]; []]; [[7]; [8; 9]; []]] [[[0]; [1; 1]; []]]%Z) [1; 2; 0].

Example C06_instance :
  exists g', add_group C01_device 0 junkR junkZ C05_spR C05_spZ C05_group C06_spR C06_spZ C06_source = Some g' /\
    cell_particles g' 0 = Some [([10; 20; 30], [0; 7]%Z); ([4; 7; 1], [0; 0]%Z)] /\
    cell_particles g' 1 = Some [([5; 8; 2], [1; 0]%Z); ([6; 9; 3], [1; 0]%Z)] /\
    cell_particles g' 2 = cell_particles C05_group 2.
Proof. eexists. split; [vm_compute; reflexivity|]. vm_compute. auto. Qed.

Example C06_instance_hypotheses :
  wf_group C06_source /\ spec_of C06_spR (reals (st C06_source)) /\ spec_of C06_spZ (ints (st C06_source)) /\
  length (npart_cell C06_source) = length (npart_cell C05_group) /\
  same_ncomp C05_spR C06_spR /\ same_ncomp C05_spZ C06_spZ /\
  members_ok (npart_cell C06_source) [1; 0; 1]%Z [1; 0; 1]%Z /\ members_ok (npart_cell C05_group) [2; 0]%Z [1; 0]%Z.
Proof.
  split; [apply wf_groupb_sound; reflexivity|]. split; [reflexivity|]. split; [reflexivity|]. split; [reflexivity|].
  split; [|split; [|split]].
  - intros sym nc j nc' [[= <- <-]|[[= <- <-]|[]]]; cbn; intros [= <-]; cbn; intros [= <-]; auto.
  - intros sym nc j nc' [[= <- <-]|[[= <- <-]|[]]]; cbn; try discriminate; intros [= <-]; cbn; intros [= <-]; auto.
  - split; [auto|]. intros [|[|[|i]]] Hi; cbn in Hi; [exists 1, 1|exists 0, 0|exists 1, 1|lia]; vm_compute; intuition.
  - split; [auto|]. intros [|[|i]] Hi; cbn in Hi; [exists 2, 1|exists 0, 0|lia]; vm_compute; intuition.
Qed.

Example C06_sub_group_instance :
  exists g', add_sub_group C01_device 0 junkR junkZ C05_spR C05_spZ C05_group None [2; 0]%Z [1; 0]%Z = Some g' /\
    cell_particles g' 0 = Some [([10; 20; 30], [0; 7]%Z); ([10; 20; 30], [0; 7]%Z)] /\
    cell_particles g' 2 = Some [([12; 22; 32], [2; 8]%Z); ([13; 23; 33], [2; 9]%Z); ([13; 23; 33], [2; 9]%Z)].
Proof. eexists. split; [vm_compute; reflexivity|]. vm_compute. auto. Qed.

(** C07: adding the products of a reaction without parents. Full property: every
    product whose cell exists is appended to the cell it names, with the values
    of the matrix and zero for the other properties.
    Missing: it is false in general (C07_cell_id_column_refuted), so it is proved
    for matrices where every INT property before the cell id has one component. *)
Theorem C07_products_are_added_to_their_cells_partial :
  forall d, device_ok d -> forall R (zeroR : R) uR uZ spR spZ cid_sym (g : group R) pm,
    wf_group g -> spec_of spR (reals (st g)) -> spec_of spZ (ints (st g)) ->
    NoDup (map fst spR) -> NoDup (map fst spZ) -> pm_ok spR spZ pm -> cell_id_column_ok cid_sym pm ->
    exists g', add_product_matrix d zeroR uR uZ spR spZ cid_sym g pm None = Some g' /\ wf_group g' /\
      appended g g' (product_cells cid_sym pm None)
        (fun i => (row_values zeroR spR (pm_specR pm) (pm_real pm) (pm_num pm) i (fun e => repeat zeroR (snd e)),
                   row_values 0%Z spZ (pm_specZ pm) (pm_int pm) (pm_num pm) i (fun e => repeat 0%Z (snd e)))).
Proof. intros. eapply add_products_no_parents; eauto. Qed.
Print Assumptions C07_products_are_added_to_their_cells_partial.

(** C07 with parents: properties the matrix does not have are those of the parent
    of the product.  Missing: as above, and products with an existing cell must
    have a parent (see C07_product_without_parent_refuted). *)
Theorem C07_descendants_inherit_from_their_parent_partial :
  forall d, device_ok d -> forall R (zeroR : R) uR uZ spR spZ cid_sym (g : group R) pm par pspR pspZ pg,
    wf_group g -> spec_of spR (reals (st g)) -> spec_of spZ (ints (st g)) ->
    NoDup (map fst spR) -> NoDup (map fst spZ) -> pm_ok spR spZ pm -> cell_id_column_ok cid_sym pm ->
    wf_group pg -> spec_of pspR (reals (st pg)) -> spec_of pspZ (ints (st pg)) ->
    same_ncomp spR pspR -> same_ncomp spZ pspZ ->
    length (par_cells par) = pm_num pm ->
    parents_ok spR spZ g par pspR pspZ pg (length (npart_cell g)) (product_cells cid_sym pm (Some par)) ->
    exists g', add_product_matrix d zeroR uR uZ spR spZ cid_sym g pm (Some par) = Some g' /\ wf_group g' /\
      exists new, appended g g' (product_cells cid_sym pm (Some par)) new /\
      forall i z, nth_error (product_cells cid_sym pm (Some par)) i = Some z ->
        (0 <= z < Z.of_nat (length (npart_cell g)))%Z ->
        exists c l p, nth_error (par_cells par) i = Some (Z.of_nat c) /\ nth_error (par_layers par) i = Some (Z.of_nat l) /\
          particle_at (st pg) c l = Some p /\
          new i = (row_values zeroR spR (pm_specR pm) (pm_real pm) (pm_num pm) i (fun e => convert zeroR [e] pspR (fst p)),
                   row_values 0%Z spZ (pm_specZ pm) (pm_int pm) (pm_num pm) i (fun e => convert 0%Z [e] pspZ (snd p))).
Proof. intros. eapply add_products_parents; eauto. Qed.
Print Assumptions C07_descendants_inherit_from_their_parent_partial.

(** The general property is false: with a 2-component INT property before the
    cell id in the matrix, the second component of that property is used as the
    cell.  Here the product names cell 2 and ends up in cell 1. *)
Theorem C07_cell_id_column_refuted :
  exists (g g' : group nat) (pm : product_matrix nat),
    wf_group g /\ pm_ok [(0, 1)] [(0, 1); (1, 2)] pm /\
    product_cells 0 pm None = [2]%Z /\
    add_product_matrix C01_device 0 junkR junkZ [(0, 1)] [(0, 1); (1, 2)] 0 g pm None = Some g' /\
    cell_particles g' 2 = cell_particles g 2 /\
    cell_particles g' 1 = Some [([5], [2; 0; 1]%Z)].
Proof.
  exists (mk_group (mk_store [[[]; []; []]] [[[]; []; []]; [[]; []; []]; [[]; []; []]]) [0; 0; 0]).
  eexists. exists (mk_pm 1 [(0, 1)] [(1, 2); (0, 1)] [5] [0; 1; 2]%Z).
  split; [apply wf_groupb_sound; reflexivity|].
  split; [vm_compute; auto|]. split; [reflexivity|]. split; [vm_compute; reflexivity|]. vm_compute. auto.
Qed.
Print Assumptions C07_cell_id_column_refuted.

(** A product with a cell of its own but no parent (parent cell and layer -1)
    reads outside the parent's data. *)
Theorem C07_product_without_parent_refuted :
  exists (g : group nat) (pm : product_matrix nat) (par : parents nat),
    wf_group g /\ pm_ok [(0, 1)] [(0, 1); (1, 2)] pm /\ cell_id_column_ok 0 pm /\
    product_cells 0 pm (Some par) = [1]%Z /\
    add_product_matrix C01_device 0 junkR junkZ [(0, 1)] [(0, 1); (1, 2)] 0 g pm (Some par) = None.
Proof.
  exists (mk_group (mk_store [[[]; []; []]] [[[]; []; []]; [[]; []; []]; [[]; []; []]]) [0; 0; 0]).
  exists (mk_pm 1 [(0, 1)] [(0, 1)] [5] [1]%Z), (mk_parents [-1]%Z [-1]%Z None).
  split; [apply wf_groupb_sound; reflexivity|].
  split; [vm_compute; auto|]. split; [|split; [reflexivity|vm_compute; reflexivity]].
  intros j. cbn. intros [= <-]. cbn. eauto.
Qed.
Print Assumptions C07_product_without_parent_refuted.

(** Two products of two parents; the second product has no cell and is dropped. *)
Definition C07_pm : product_matrix nat := mk_pm 3 [(1, 1)] [(0, 1)] [50; 51; 52] [2; -1; 0]%Z.
Definition C07_par : parents nat := mk_parents [0; -1; 2]%Z [0; -1; 1]%Z None.
Example C07_instance :
  exists g', add_product_matrix C01_device 0 junkR junkZ C05_spR C05_spZ 0 C05_group C07_pm (Some C07_par) = Some g' /\
    cell_particles g' 0 = Some [([10; 20; 30], [0; 7]%Z); ([13; 23; 52], [0; 9]%Z)] /\
    cell_particles g' 1 = Some [] /\
    cell_particles g' 2 = Some [([12; 22; 32], [2; 8]%Z); ([13; 23; 33], [2; 9]%Z); ([10; 20; 50], [2; 7]%Z)].
Proof. eexists. split; [vm_compute; reflexivity|]. vm_compute. auto. Qed.
Example C07_instance_hypotheses :
  NoDup (map fst C05_spR) /\ NoDup (map fst C05_spZ) /\ pm_ok C05_spR C05_spZ C07_pm /\ cell_id_column_ok 0 C07_pm /\
  same_ncomp C05_spR C05_spR /\ same_ncomp C05_spZ C05_spZ /\ length (par_cells C07_par) = pm_num C07_pm /\
  parents_ok C05_spR C05_spZ C05_group C07_par C05_spR C05_spZ C05_group 3 (product_cells 0 C07_pm (Some C07_par)).
Proof.
  assert (N1 : NoDup (map fst C05_spR)) by (repeat constructor; cbn; intuition lia).
  assert (N2 : NoDup (map fst C05_spZ)) by (repeat constructor; cbn; intuition lia).
  split; [auto|]. split; [auto|]. split; [vm_compute; auto|].
  split; [intros j; cbn; intros [= <-]; cbn; eauto|].
  split; [apply same_ncomp_refl; auto|]. split; [apply same_ncomp_refl; auto|]. split; [reflexivity|].
  split; [left; auto|]. intros [|[|[|i]]] z; cbn; try (intros [= <-]); intros H.
  - exists 0, 0. auto.
  - lia.
  - exists 2, 1. vm_compute. tauto.
  - destruct i; discriminate.
Qed.
