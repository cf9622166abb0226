# Formal model of NESO-Particles in Rocq (Coq 8.16.1)

## How the development is organised

* `properties.jsonl` lists the properties (C01, C02, ...).
* `rocq/theories/` holds the development. An area `X` of the code has up to four files:
  * `X_Model.v`  - the code, function by function, as total computable Gallina. Each definition cites the file and lines it models, and says where it simplifies. No proofs.
  * `X_Spec.v`   - the small independent specification: definitions that do not mention the model's helpers.
  * `X_Proofs.v` - lemmas.
  * `X_Props.v`  - the property theorems only, each closed by `exact lemma`, each followed by `Print Assumptions` and by an `Example` showing a concrete non-trivial instance that meets its hypotheses.
* `MANIFEST.json` maps properties to theorems. `seeded/LOG.jsonl` records the wrong programs tried against the theorems.

Conventions of the model:

* `REAL` data is an arbitrary type `V` where values are only copied, and rationals `Q` where the code does arithmetic (so rounding is not modelled). `INT`/`int`/`size_t` are `Z` or `nat` (so overflow is not modelled unless a definition says otherwise).
* A device kernel is a function of one work item. A kernel whose work items only write disjoint places is run over a list of work items; the theorems quantify over every permutation of that list. A kernel that uses atomics is a fold over the list of work items in the order in which their atomic operations take effect; again the theorems quantify over every permutation (every schedule). Kernels that need finer interleaving (compare-and-swap loops) have a small-step semantics.
* Reads and writes outside an allocation, and assertion failures (`NESOASSERT`), are a distinct outcome (`None`), never a default value.
* MPI ranks are a list of rank states; a collective or exchange is a function of all of them and, where the arrival order matters, of an arbitrary order.

## Plan per property

| id | modelled | proof |
|----|----------|-------|
| C01 | `LayerCompressor` dense planner (masks, scans, pairing arithmetic), copy kernel, row trimming, group counters | survivors characterised as a filter of the old rows; the result is a permutation of it in each cell, by counting arguments on prefix sums |
| C02 | the same copy kernel | sources are never destinations and destinations are distinct; every permutation of the copies gives the same memory |
| C03 | `CellMove::move` | composition of "append movers" for an arbitrary schedule with C01 |
| C04 | `get_new_layers` | invariant on the fold over an arbitrary order of increments |
| C05 | `add_particles_local(ParticleSet)` and `append_particle_data` | refinement to "append per cell" |
| C06 | `add_particles_local(ParticleGroup / ParticleSubGroup)` | refinement to "append per cell" |
| C07 | `add_particles_local(ProductMatrix)` with the specification's offsets | placement theorem under an explicit condition, and a refutation of the unconditional claim if the faithful model violates it |
| C08 | `ParticlePacker::pack`, `ParticleUnpacker::unpack` on a byte-slot memory | offset injectivity by induction on the specification, round trip |
| C09 | `GlobalMove::move`, `GlobalMoveExchange` over all ranks | multiset conservation for all schedules and receive orders |
| C10 | `DepartingIdentify::identify` | invariant on the fold over an arbitrary order |
| C11 | `LocalMove::move` over a neighbour graph | as C09 |
| C12 | state machine of the group's operations | invariant over histories |
| C13 | two-level joint exclusive scan | equality with the sequential prefix sum for all sizes |
| C14 | `get_decomp_1d`, `get_decomp_1d_inverse` | arithmetic |
| C15 | `get_generic` block iteration set, `ParticleLoopBlockDevice` | each (cell, layer) has exactly one work item |
| C16 | loop index functions | bijection by prefix sum lemmas |
| C17 | tuple/linear maps | mutual inverse, induction on the dimension list |
| C18 | `claim_*` | closed form of the three reductions, order independence |
| C19 | `get_neighbour_mh_cells` | set characterisation |
| C20 | device mapper over Q | floor arithmetic |
| C21 | `BlockedBinaryTree` | refinement to a finite map by induction on the tree |
| C22 | `LookupTable` | refinement to a finite map |
| C23 | `NDIndex` | bijection, induction on the dimension list |
| C24 | kernel selectors (atomic and scan versions) | permutation of a filter |
| C25 | version counters of group, dats, selectors | invariant over histories; refutations for writes that bypass the counters |
| C26 | static status | invariant over histories |
| C27 | truncate, discard selectors | equality with firstn / skipn |
| C28 | cell, copy, union selectors, with pooled buffers of arbitrary previous content | equality with the specification, refutation for the empty range if the faithful model violates it |
| C29 | partitioner | permutation of a filter |
| C30 | `get_particles` | equality |
| C31 | product matrix and particle set layouts | injectivity and bounds |
| C32 | `CellDat::set_nrow_inner` | frame and preservation |
| C33 | CAS loop small-step semantics | linearisability invariant |
| C34 | `bitonic8` | 0-1 principle proved in general, then a decided finite case for booleans |
| C35 | explicit inverses over Q | field identity |
| C36 | `line_segment_intersection_2d` over Q | field and order arithmetic |
| C37 | `ResourceStack` | invariant over histories |
| C38 | `matrix_transpose` | index bijection; refutation for degenerate shapes if the model violates it |
| C39 | transition system of the MPI calls of `GlobalMoveExchange` and `LocalMove` for any number of ranks and any sequence of moves; the handshake of the `LocalMove` constructor | inductive invariant (channel contents = sent minus received), progress, decreasing measure |
| C40 | `consistent_line_orientation_2d` over Q | order arithmetic |
| C41 | `CellwiseAllToAll` (`apply`, `apply_diagonal`, `apply_inner_block`): the calls and synchronisations of each work item | closed form of the steps; rectangles and triangles of pairs up to permutation, induction on the block size |
| C42 | `CellwisePairListHost::push_back` and the maps it fills | invariant: the wave of a push is the greedy one |
| C43 | `CellwisePairListSimple`: constructor, `push_back`, `set`, `clear`, `get_host_pair_list`, `get_pair_count`; the accessors of `CellwisePairListDevice` | representation invariant over histories of calls |
| C44 | `ParticlePairLoop::submit` over cellwise pair lists, both the kernel-per-wave and the work-group version | the phases of the execution are permutations of the pairs of the waves; orders of effect as interleavings |
| C45 | the same, with an arbitrary kernel acting on particle data | commuting independent pairs (trace equivalence) using C42 |
| C46 | `CollisionCellPartition`: construction, repeated `construct` with atomic binning, device accessors, `get_max_num_pairs`; the species map is the tree of C21 | binning by atomics gives each particle of a bin its own row below the number of particles of the bin (for every order); exclusive sums place the bins; induction over the constructions; maximality by counting |
| C47 | `PairSamplerNoReplacement`: construction, `sample` (counts, nested scans, drawing by swapping with the last available index), `get_host_pair_list`; random numbers are rationals, products and truncation exact | the available indices stay distinct and shrink by one per draw; the cells write disjoint rows; induction over the calls; reachability by computing the random number for a wanted index; the loop by the general lemma of C44/C45 |
| C48 | `PairSamplerNTC::sample`, CPU and GPU: request loop, drawing, the atomic conflict detection of a block (each work item has three atomic operations, interleaved in any way), resolution between barriers, writing; the accessors of the block list; random numbers are rationals | invariant over any interleaving: at most one work item sees 0 for a particle, so pairs settled at once are disjoint and the others have distinct orders; the result is the greedy colouring in some order; induction over blocks and cells with disjoint segments |
| C49 | submit of the block pair loop: preparation, items, phases between barriers, work groups; CPU and GPU variants | well-formed lists give work groups whose phases are the waves of the blocks; interleavings are reordered by the trace lemma of C45 |
| C50 | get_host_pair_list, validate_pair_list, occupancy counts, mean and global counts of block pair lists | Loops that collect a flag and counts; equivalence of the flag with the contract of the block pair loop; tables of counters under permutations of the schedule |
| C51 | `CartesianHMesh`: choice of the decomposition, start and end cells per rank, owned cells, local ids, owner queries, claims on the hierarchy, stencil neighbours | MPI topology functions enter as a record with the guarantees of the standard (ranks and coordinates one to one); 1-D decomposition lemmas of C13 per dimension give a partition; the claims go through the epoch model of C31; neighbours by set membership; decomposition search by an invariant on the count of unknown dimensions |
| C52 | periodic loop, cell bin, local mapper (constructor, self test, kernel), global map (stages, error flag, owner lookup), reset, with positions as rationals and the conversions to int checked for range | per-particle effect of each kernel lifted to all schedules by a loop lemma; the cell of a position is unique, truncation computes it; lookups against the map of owners |
| C53 | numbers and strides per side, their sums, conversions between ids and tuples, the cell behind a face cell, owners, own face cells, corner points | uniform description of a side by its normal and two tangential dimensions (in 2D the third has one cell), then division with remainder; case analysis over the six sides |
| C54 | hybrid_move, cell_move and their combination with CartesianPeriodic, on the list of the groups of all ranks | the theorems of C52, C51, C09, C11 and C03 composed; a state predicate per particle between the stages |
| C55 | CellDatConst: construction, fill, set and get of values, cells and all cells, kernel access | one representation invariant (entry (c, r, k) at c * nrow * ncol + nrow * k + r), preserved by each call |
| C56 | reduce_dat_component_cellwise, reduce_dat_components_cellwise, joint_reduce; one work group per cell (and component), in any order | strided loops partition the particles; reductions as totals in a commutative monoid on the values in use |
| C57 | loops with a reduction argument: local memory, combine calls, tree per entry, atomic updates; get_num_local_work_items | tree by induction on the exponent of the work group size; the visits of all work groups are the particles of the cells (C15); totals are invariant under permutation |
| C58 | the per particle RNG: allocation, double buffered drawing with copies that complete early or late, views, reads by loop linear index | invariant of the block loop; the dense loop linear index of C16 turns particles and components into distinct draws |
| C59 | the atomic RNG: left over values, redraws, counter and poison flag, calls in two atomic steps, histories | invariant over schedules (calls started, finished, poisoned), invariant over histories (unused draws in the buffer) |
| C60 | post_integration with its three reused buffers, the lookup table between loop index and local index, the 2D and 3D intersection kernels, the group map and the face cell arithmetic, over Q | per dimension: the plane chosen is crossed, the dimension with the smallest ratio is always found; invariant over the schedule for the buffers; face cells through the numbering of C53 |
| C61 | truncate_trajectory and reflect_trajectory over the real numbers (square roots) | algebra of scalar products; case analysis on the tiny move and the overshoot; uses the axioms of the standard library Reals |
| C62 | the maps, sets and counts of BoundaryMeshInterface on all ranks, the neighbourhood exchanges with the neighbour orders chosen by MPI, packing and unpacking kernels | invariant over the history of extensions (numbering, sets per owner, counts, pack indices); block layout of the messages; sums over a commutative monoid are independent of the order |
| C63 | boundary functions on all ranks: creation, fill, set, projection phases, evaluation with cached copies and version counters, on top of the exchange of C62 | simulation of a reference machine (facets seen, value per facet, contributions so far); invariant: staged entries are the partial sums of the rank, or the cached copy holds the values when its version is current |
| C64 | parallel_advection_initialisation: the stored positions as extra components, the step and restore loops, hybrid_move after each step | invariant over the steps (position on the segment, original stored), convexity of the domain, composed with C54 |
| C65 | LocalArray, GlobalArray with stage buffers from the pool, pre loop, kernels as an arbitrary interleaving of atomic adds and reads, post loop reduction, histories | invariants over prefixes of arguments and of the schedule; induction over the history |
| C66 | the two kernels of ParticleRemover with its persistent buffers; the sub-group and host-list forms of remove_particles; clear | the kernels list every particle with the key once for any schedule; the list is a valid request of C01 |
| C67 | each rank as a list of blocking calls, messages in FIFO queues per pair of ranks, a send returns when its message is received or earlier if MPI buffers it | the programs are the projections of one list of transfers; an invariant relates every reachable state to the transfers still to do (deadlock freedom, a decreasing weight, result independent of the schedule); induction over the rounds of the tree for the union |
| C68 | get_remote_ranks as a small-step system: place of each rank in the call, window counter, number of barriers entered, messages in flight per pair of ranks | invariant with two windows (exchange of call k-1 in progress / counting of call k), progress, decreasing measure |
| C69 | SerialContainer, MHCellBuffer byte by byte; MeshHierarchyContainer on all ranks; exchanges with named sources as matching of message queues; discovery = any result allowed by C68 | pack/unpack round trip; invariant over histories of gather: gathered, no-owner and buffers of each rank in terms of the requests |
| C70 | CellSTDRepresentation from a DMPlex given by cones, heights and coordinates; serialise and deserialise byte by byte; HaloDMIndexMapper and dm_from_serialised_cells as loops over maps and sets | closure by induction on the recursion; round trip; the numbering is the position in the concatenation of the sorted layers; loop invariants over (cell, point) events |
| C71 | the constructor of DMPlexHelper and its four look-ups | invariants of the two loops |
| C72 | overlap_1d, bounding_box_map, claim, bounding_box_claim and the loop over the elements; exact arithmetic | the box of cells contains every cell that is met (floor), the one-dimensional overlap is positive iff the open intervals meet, sums of overlaps telescope; an invariant over the list of all (element, cell) pairs for the claims |
| C73 | overlay mesh: constructor, cell of a position, lower/upper cell of a box, list of intersecting cells, creation by splitting the widest dimension; bounding boxes and their union; candidate lists of the overlay cells; crossing test; the mapping kernel for one particle | crossing numbers of triangles and convex quadrilaterals by case analysis on the sides and barycentric identities; truncation bounds for overlay cells; the candidate lists equal a filter of the list of all cells, hence the map equals the test of all cells |
| C74 | set up of an unstructured mesh on all ranks: claims, election of owners, split into owned and unowned cells, elements packed on mesh hierarchy cells, gathering, halo mesh, neighbour ranks | composition of the theorems for the parts (C18, C19, C69, C70, C72) with membership invariants of the folds |
| C75 | QuadraturePointMapper on all ranks: adding points, the numbering of points held by other ranks, the exchange of indices and values, set, get, writing loops | per rank: the place of a point in the send buffer is its position in the lists by adding rank (induction over the schedule); exchanges through the sender lists; induction over calls with a table of values as invariant |
| C76 | the map of indices on host and device, the two copies with the reused device buffer | invariant of all histories: the map holds the last index set and the buffer has its size; the scatter is injective so every order gives the same result |
| C77 | the counts per cell, element wise expressions over a store of matrices in which the result may be an argument, the broadcast and the copies of temporary data | invariant over the finished work items: elements not yet written still have their old value; kernels that write distinct locations |
| C78 | UnseenValueExtractor::extract: the device loop that appends unseen values, the host set, the tree of seen values | induction on the history of calls: the tree holds exactly the values of earlier calls; the kernel appends the values not in the tree in some order |
| C79 | SymVectorPointerCache create/get/find/reset_ephemeral, EphemeralDats, add/remove of ParticleDats, the calls of a loop with a SymVector | simulation of a program without a cache; invariant: cached pointers are the current ones, keys with EphemeralDats are recorded |
| C80 | BoundaryInteraction2D: the facets of all ranks, the search for mesh hierarchy cells (atomics, truncation, buffer), the trees of facets and normals, the search along a trajectory, the sub groups | Invariants of the bounds and the buffer (all cells of a trajectory are collected), of the trees (C21), of the search (nearest so far); a crossed facet is in a cell of the trajectory (C72, C36) |
| C81 | The inverse volumes, the coefficients, the point values and all calls of DMPlexProjectEvaluateDG as a state machine over Q, with arbitrary contents of new memory and arbitrary order of the particles. | Refinement to functions from cells and components to numbers, by induction over the history; conservation from the sums over cells. |
| C82 | The constructor of DMPlexMeshCouplerDG0 on all ranks together, with the neighbours in any order MPI may report, and both transfers with arbitrary contents of the stages. | The constructed arrays are computed in closed form from the entries grouped by owner, with the neighbourhood collectives of C62; then the sums over received rows are rearranged into the sums of the specification. |
| C83 | The collective get_map_from_global_cell_points_to_ranks on all ranks together, over the helpers of C71. | The maximum over the ranks is the owner because owned cells are disjoint; counting shows that consecutive numbers are the only ones accepted; composed with C71 it gives the assumptions of C82. |
| C84 | DMPlexHostMapper::map with its packed buffers, the search in the halo and both loops in any order. | The loop linear index is a bijection to the packed positions; invariants of the three loops. |
| C85 | `ParticleGroupTemporary::get` and `restore` with the resource stack, adding and removing of properties, the constructor from a specification | invariant over histories: every group has the protected properties of the source; the two passes over the properties by loop invariants |

## What is modelled

| files in `theories/` | code |
|---|---|
| `Base`, `Kernel` | option monad, checked memory accesses, device (arbitrary schedule per launch, uninitialised memory) |
| `Scan_*` | `joint_exclusive_scan` (both levels), `get_decomp_1d`, `get_decomp_1d_inverse` |
| `Group_*` | storage of a `ParticleGroup`: columns of cells, number of particles per cell |
| `Compress_*` | `LayerCompressor::remove_particles` (bulk and loop branches), `remove_particles` of the group |
| `Move_*` | `CellMove::move` |
| `Loop_*` | iteration sets, `ParticleLoopBlockDevice`, loop indices |
| `Add_*`, `Append_*`, `AddGroup_*`, `AddProducts_*` | `add_particles_local` for `ParticleSet`, `ParticleGroup`, `ParticleSubGroup`, `ProductMatrix` |
| `Pack_*`, `Depart_*`, `Unpack_*` | `DepartingIdentify`, `ParticlePacker`, `ParticleUnpacker` |
| `Exchange_*`, `World_*` | `GlobalMove::move`, `LocalMove::move` on all ranks |
| `Protocol_*` | MPI calls of the two moves as a transition system |
| `Mesh_*`, `MeshNb_*`, `MeshPos_*`, `MeshClaim_*` | `MeshHierarchy`: index conversions, claims and owners, neighbours, cells of positions (rationals for REAL) |
| `Maps_*` | `BlockedBinaryTree` (heap of nodes), `LookupTable`, `NDIndex`, `NDLocalArray` |
| `DeviceFn_*`, `Cas_*`, `Bitonic_*` | `device_functions.hpp`: intersections, orientation, inverses (rationals for REAL, division by zero is a failure), compare-and-swap maximum and minimum, `bitonic8` |
| `Pool_*` | `ResourceStack`, `ResourceStackMap` |
| `Transpose_*` | `matrix_transpose` (work groups, local memory, both tile loops) |
| `CellDat_*` | `CellDat`: allocation and reallocation, pointer tables on host and device, outstanding copies in any order, `reduce_nrow`, `get_cell`, `set_cell`, `get_value`, `set_value`, cached maximum and minimum of the rows; fixed size layout of ephemeral properties. The growth factors are arbitrary |
| `PSet_*` | `ParticleSet`, `ParticleSetDevice`, `ProductMatrix` storage, `DescendantProducts`, `get_particles` of groups and of sub-groups (host versions with all checks, device kernels, pooled buffers with arbitrary contents). Names are numbers; int and size_t are unbounded |
| `Version_Model.v` | version counters: `invalidate_callback_inner`, `check_validation`, `invalidate_group_version`, `SubGroupSelectorBase::get`, `ParticleSubGroup::create_if_required`, `static_status`, `is_valid`, partitions as views; a selector is an arbitrary function of structure, property values and parents; counters do not wrap |
| `Counter_Model.v` | the count tables of a group: `recompute_npart_cell_es`, `set_npart_cell_from_dat`, `add_particle_dat`, `remove_particle_dat`, `clear`, all forms of adding particles, `remove_particles`, `cell_move`, `global_move`/`local_move`/`hybrid_move`, the pointer-map cache | particle data (an operation carries the cells and layers involved); the communication (the number of received particles is a parameter) |
| `AllToAll_*` | `CellwiseAllToAll`: calls and synchronisations of each work item |
| `PairList_Model.v` | `CellwisePairListHost`, `CellwisePairListSimple`, `CellwisePairListDevice`, the `submit` of the pair loop over cellwise pair lists (both versions). The kernel is an arbitrary function; its arguments other than particle data (local arrays, RNG) are left out |
| `Bins_Proofs`, `Partition_*` | `src/algorithms/dsmc/collision_cell_partition.cpp`, `include/neso_particles/algorithms/dsmc/collision_cell_partition.hpp` | C46 |
| `SamplerNR*` | `src/algorithms/dsmc/pair_sampler_no_replacement.cpp` | C47 |
| `SamplerNTC*` | `src/algorithms/dsmc/pair_sampler_ntc.cpp`, accessors of `pair_loop/cellwise_pair_list_block.hpp` | C48 |
| `BlockLoop_Model.v`, `BlockLoop_Spec.v`, `BlockLoop_Proofs.v`, `BlockSerial_Proofs.v`, `BlockLoop_Props.v` | particle_pair_loop_cellwise_pair_list_block.hpp L32-41, L110-340 | C49 |
| `BlockCheck_*`, `BlockStats_Proofs` | `src/pair_loop/cellwise_pair_list_block.cpp` (all) | C50 |
| `CartMesh_Model`, `CartMesh_Spec`, `CartMesh_Proofs`, `CartOwner_Proofs`, `CartDecomp_Proofs`, `CartMesh_Props` | src/cartesian_mesh/cartesian_h_mesh.cpp constructor, owned cells, owner queries, neighbours; decomposition helpers | C51 |
| `CartMap_Model`, `CartMap_Spec`, `CartLoop_Proofs`, `CartMap_Proofs`, `CartBin_Proofs`, `CartLocal_Proofs`, `CartGlobal_Proofs`, `CartMap_Props` | cartesian_periodic.cpp, cartesian_cell_bin.cpp, cartesian_mesh.cpp (local mapper), global_mapping.cpp | C52 |
| `CartFace_Model`, `CartFace_Spec`, `CartFace_Proofs`, `CartFace_Props` | cartesian_h_mesh.cpp (boundary faces), cartesian_h_mesh.hpp (get_face_cells) | C53 |
| `CartMove_Model`, `CartMove_Spec`, `CartMove_Proofs`, `CartMove2_Proofs`, `CartMove3_Proofs`, `CartMove_Props` | particle_group.cpp (hybrid_move, cell_move) on a Cartesian mesh | C54 |
| `CellConst_Model`, `CellConst_Spec`, `CellConst_Proofs`, `CellConst_Props` | containers/cell_dat_const.hpp (storage and access) | C55 |
| `Reduce_Model`, `Reduce_Spec`, `Reduce_Proofs` to `Reduce4_Proofs`, `Reduce_Props` | algorithms/reduce_dat_cellwise.hpp, loop/particle_loop_reduction.hpp, particle_loop_sub_group_reduction.hpp, cell_dat_const.hpp (reductions), compute_target.cpp (get_num_local_work_items) | C56, C57 |
| `RNG_Model`, `RNG_Spec` | `containers/rng/host_rng_common.hpp`, `host_per_particle_block_rng.hpp`, `host_atomic_block_kernel_rng.hpp`, `loop/particle_loop_utility.cpp` | C58, C59 |
| `Traj_Model`, `Traj_Spec`, `Traj_Proofs`, `Traj2_Proofs`, `Traj3_Proofs`, `Traj_Props` | `cartesian_trajectory_intersection.hpp` L59-523, `cartesian_trajectory_intersection.cpp` L7-75, `device_functions.hpp` L250-272 and L336-360; not the exchange pattern of face cells | C60 |
| `Bounce_Model`, `Bounce_Spec`, `Bounce_Proofs`, `Bounce_Props` | `boundary_truncation.hpp` L25-99, `boundary_reflection.hpp` L21-40, the two `execute` functions | C61 |
| `Bmi_Model`, `Bmi_Spec`, `Bmi_Proofs`, `Bmi2_Proofs` - `Bmi4_Proofs`, `Bmi_Props` | BoundaryMeshInterface: `extend_exchange_pattern`, `exchange_from_device`, `reverse_exchange_from_device`; MPI neighbourhood collectives are modelled by their specification | C62 |
| `Surf_Model`, `Surf_Spec`, `Surf_Proofs`, `Surf_Props` | `cartesian_trajectory_intersection.cpp` L123-384 and `cartesian_h_mesh_function.cpp`: functions on the boundary, their projection and evaluation | C63 |
| `ParInit_*` | src/parallel_initialisation.cpp; add_particle_dat, remove_particle_dat | C64 |
| `Arr_Model`, `Arr_Spec`, `Arr_Proofs`, `Arr_Props` | containers/local_array.hpp, containers/global_array.hpp, the submit/wait protocol of loop/particle_loop.hpp for these arguments | C65 |
| `Remover_{Model,Spec,Proofs,Props}.v` | particle_remover.hpp; src/particle_group.cpp remove_particles (host lists, sub-group), clear; get_cells_layers | C66 |
| `Union_{Model,Spec,Proofs,Props}.v`, `UnionTree_Proofs.v` | communication_utility.hpp set_send, set_recv, set_bcast, set_reduce_union, set_all_reduce_union; is_power_of_two | C67 |
| `Edges_Model`, `Edges_Spec`, `Edges_Proofs`, `Edges_Props` | src/communication/communication_edges_counter.cpp: all calls made by get_remote_ranks; windows in the unified memory model; freeing of the window not modelled | C68 |
| `Serial_Model`, `MHC_Model`, `MHC_Spec`, `Serial_Proofs`, `MHCmsg_Proofs`, `MHC_Proofs`, `MHC_Props` | mesh_hierarchy_data/serial_container.hpp, mesh_hierarchy_container.hpp, communication_edges_counter.cpp L37-98 (ordered counts, data) | C69 |
| `CellRep_Model`, `CellRep_Spec`, `CellRep_Proofs`, `Halo_Model`, `Halo_Spec`, `HaloRep_Proofs`, `HaloMap_Proofs`, `Halo_Proofs`, `Halo_Props` | petsc/dmplex_cell_serialise.cpp/.hpp, dmplex_helper.cpp L120-356, dmplex_helper.hpp L65-163 | C70, C71 |
| `Overlap_Model`, `Overlap_Spec`, `Overlap_Proofs`, `OverlapMap_Proofs`, `OverlapClaim_Proofs`, `Overlap_Props` | local_claim.cpp, bounding_box.hpp (the box and its bounds), dmplex_interface.cpp L91-112 | C72 |
| `Mapper2D*` | `overlay_cartesian_mesh.{hpp,cpp}`, `dmplex_2d_mapper.cpp`, bounding boxes of `dmplex_helper.cpp`, `BoundingBox::expand` | C73 |
| `Interface*` | `dmplex_interface.cpp` L63-190 | C74 |
| `Quad_Model`, `Quad_Spec`, `QuadRank_Proofs`, `QuadFin_Proofs`, `QuadGet_Proofs`, `QuadCalls_Proofs`, `Quad_Props` | external_interfaces/common/quadrature_point_mapper.{hpp,cpp} (without the per-cell numbering in component 3 of ADDING_RANK_INDEX) | C75 |
| `Dof_Model`, `Dof_Spec`, `Dof_Props` | dof_mapper_dg.hpp, dof_mapper_dg.cpp | C76 |
| `Cellwise_Model`, `Cellwise_Spec`, `Cellwise_Proofs`, `Cellwise_Props` | algorithms/cellwise_methods.hpp, algorithms/particle_data_movement.hpp, at and at_ephemeral of pli_particle_dat.hpp | C77 |
| `Unseen_Model`, `Unseen_Props` | algorithms/unseen_value_extractor.hpp and .cpp | C78 |
| `SymCache_Model`, `SymCache_Spec`, `SymCache_Props` | containers/sym_vector_pointer_cache.hpp, containers/sym_vector_impl.hpp, containers/ephemeral_dats.hpp and .cpp, add and remove of dats in particle_group.cpp | C79 |
| `Facet_*`, `FacetHit_Proofs` | petsc/boundary_interaction: boundary_interaction_2d.hpp/.cpp, boundary_interaction_common.hpp/.cpp. The computation of the normals (square root), pre_integration and the reflection are left out; the gather of facets is one list | C80 |
| `DG0_Model`, `DG0_Spec`, `DG0_Proofs`, `DG0_Props` | `dmplex_project_evaluate_dg.hpp`, `dmplex_project_evaluate_dg.cpp`: constructors, project, evaluate, get_dofs, set_dofs (volumes are inputs; the point mapper is its list of points) | C81 |
| `Coupler_Model`, `Coupler_Spec`, `Coupler_Proofs`, `CouplerBuild_Proofs`, `CouplerMove_Proofs`, `Coupler_Props` | `dmplex_mesh_coupler_dg0.cpp`, `dmplex_mesh_coupler_dg0.hpp`: constructor, forward_transfer, backward_transfer (owners and local numbers of the cells of B are inputs; int overflow and sizes of types are left out; a neighbour has at most one edge) | C82 |
| `Numbering_Model`, `Numbering_Spec`, `Numbering_Proofs`, `Numbering_Props`, `NumberingCoupler_Props` | `dmplex_helper.cpp` L753-805 `get_map_from_global_cell_points_to_ranks`; what `dmplex_mesh_coupler_dg0.cpp` L25-26 and L286 take from the helper | C83 |
| `HostMap_Model`, `HostMap_Spec`, `HostMap_Proofs`, `HostMap_Props` | `dmplex_host_mapper.cpp`: map; `particle_loop_index.hpp`: get_loop_linear_index (DMLocatePoints is a function; the dimension test of `dmplex_local_mapper.hpp` is not modelled) | C84 |
| `TempGroup_*` | `particle_group_temporary.cpp`, `resource_stack.hpp`, `particle_group.cpp` add/remove/clear (names, components and numbers of particles; not the data) | C85 |

Everything else in /repo is not modelled. In the modelled functions the following is left out: profiling, memory
allocation failure, the assignment of work items to hardware, the implicit synchronisation of SYCL queues (a
kernel is complete when `wait` returns), 64-bit overflow, rounding of `REAL`.

## Findings

Each is a theorem about the faithful model.

* `C01_negative_cell_id_refuted`: a removal list entry with a negative cell id or layer is not ignored.
* `C07_cell_id_column_refuted`: `add_particles_local(ProductMatrix)` reads the wrong column as cell id when an INT property with several components precedes the cell id.
* `C07_product_without_parent_refuted`: the overload that inherits the cells from parents reads outside the parent's data for a product that names a cell but no parent (cell and layer -1).
* `C19_large_offset_refuted`: with an offset larger than the number of cells in a dimension the periodic neighbour computation forms a negative cell coordinate (the C++ remainder of a negative number is negative) and fails.
* `C20_position_below_the_domain_refuted`: a position below the origin is accepted when its distance to the origin is below one coarse cell in that dimension (truncation towards zero), no error is raised.
* `C20_position_below_gives_unrelated_cell_refuted`: a position further below the origin is accepted and gives a negative tuple whose linear index is that of an unrelated cell.
* `C20_cartesian_boundary_refuted`: `map_to_cart_tuple_no_trunc` is one cell too low exactly on a cell boundary below the origin.
* `C38_single_row_refuted`: `matrix_transpose` returns without writing the destination when the matrix has a single row or a single column (although the transpose is then a plain copy).
* `C32_two_resizes_refuted`: resizing a cell twice without `wait_set_nrow` in between can lose its rows: the second copy reads the block that the first copy, not ordered before it, is to fill.
* `C32_nrow_min_refuted`: `get_nrow_min` of a new `CellDat` is -1 (the cached maximum is 0, so nothing is recomputed).
* `C31_at_beyond_the_particles_is_an_error_refuted`: `ParticleSet::at` with a particle index beyond the last particle silently gives an element of the next component (only the end of the whole vector is checked).
* C24/C27/C29: SubGroupParticleMap::npart_total is never initialised (sub_group_particle_map.hpp L26) and create() leaves it alone for an empty cell range, so on a rank without cells the scan selector and the partition report an uninitialised npart_local; truncate, discard and union read entry cell_count - 1 of an array of length 0 (C24_ordered_no_cells_refuted, C27_no_cells_refuted).
* C24/C29: both loops of a selector bring the parent up to date first. If a dat of the parent is marked as always written (device_ptr was taken) the parent is rebuilt between the two loops, and if its order comes from atomics the order may differ. The scan selector and the partitioner index their temporaries by the position in the loop, so they then list rejected or non-existing particles (C24_ordered_rebuilt_parent_refuted, C29_rebuilt_parent_refuted); the atomic selector indexes by the particle and is not affected (P0, P1 in C24_kernel_sub_group).
* C25: the caches of sub-groups go stale in four ways (each a `_refuted` theorem): `CellDat::set_value` has no callback; the "always written" mark of `device_ptr` is a single flag that the next tracked write clears although the pointer may still be used; a property that is removed and added again restarts at version 1, the version an earlier selection may have seen; a child built while its parent was static is not rebuilt after `static_status(false)` on the parent.
* C26: `C26_partition_refuted`: the sub-groups of a partition share the storage of the partitioner, so a static one changes when a sibling is used after a write.
* C12: with `NESO_PARTICLES_NPART_CELL_HINT` set, a property added to a group with more particles in a cell than the hint gets too few rows (`C12_rows_hint_too_few_refuted`); in a new group `get_cell` returns `hint` rows for an empty cell (`C12_rows_hint_empty_refuted`).
* C12: a move on a rank without cells accesses entry 0 of empty tables, also when nothing is received (`C12_move_without_cells_refuted`).
* C41: for a work group size that is not a power of two `CellwiseAllToAll` misses pairs and visits others twice (`C41_not_power_of_two_refuted`); and concurrent calls share their first particle (`C41_first_particle_shared_refuted`).
* C42: the order of the particles of a pair is not kept: the smaller layer always becomes the first particle (`C42_order_of_particles_refuted`); a pair of a particle with itself is accepted (`C42_self_pair_refuted`).
* C43: pushing to a list that was set and not cleared hides the pairs of later waves (`C43_push_after_set_refuted`); after setting a list with fewer waves than before, or an empty host list, a clear and a push fail with an assertion (`C43_push_after_clear_refuted`).
* C44: a list that was never filled or was cleared counts -1 pairs, which shifts the pair numbers of the lists after it (`C44_empty_list_refuted`); pairs of different lists run concurrently (`C44_two_lists_refuted`).
* C45: pairs given to `CellwisePairListSimple::push_back` all go to one wave; if two share a particle the result of a loop depends on the schedule (`C45_push_back_refuted`).
* The collision cell that a particle carries is not compared with the number of collision cells of its mesh cell: a larger one is counted in the next mesh cell or written out of bounds (`C46_collision_cell_unchecked_refuted`).
* A `CollisionCellPartition` without species has a species map without root: looking up any species dereferences it. C46 is proved for at least one species.
* More pairs than `get_max_num_pairs` reports are not refused by `PairSamplerNoReplacement::sample`; sampling then reads outside the local memory (`C47_too_many_refuted`).
* Two overlapping sub-groups that are different objects may give a pair of a particle with itself in `PairSamplerNTC::sample` (`C48_overlap_refuted`); a negative random number is used as an index (`C48_negative_refuted`).
* C49: the block pair loop takes the block size of the last list and compares only that with the work-group size. If an earlier list was made with another block size (LOOP_LOCAL_SIZE was changed in between), its waves are run over other blocks than they were made for and pairs that share a particle run concurrently (`C49_mixed_block_sizes_refuted`).
* C51_one_dimension_refuted: `CartesianHMesh` checks only ndim > 0 at the start of its constructor, and its grid arithmetic supports one dimension, but the constructor ends with `compute_owned_face_indices`, whose assertion rejects every mesh with one dimension.
* **C52: positions below the origin.** MeshHierarchyGlobalMap only reports positions above the domain. A particle at most one coarse cell below the origin is given, by the truncation towards zero, the rank of the first cells without an error (`C52_below_the_origin_refuted`). REAL is modelled by rationals; the effect of rounding in x * (1/width) near a face is outside the model.
* C55: `CellDatConst::set_cell` accepts a matrix with more rows than the CellDatConst (the assertions at cell_dat_const.hpp L702-703 are `>=`), then copies nrow * ncol consecutive elements of the column-major matrix, so that all columns but the first are shifted: `C55_set_cell_larger_matrix_refuted`.
* C56: `reduce_dat_components_cellwise` accepts a property with more components than the matrices have entries (it asserts `>=`, the documentation says they must match). The offsets of the surplus components are 0, and they are reduced into entry (0, 0), moreover without atomics while another work group updates the same entry: `C56_surplus_components_refuted`.
* The per particle RNG checks only the number of particles against the range of int, while `at` computes `col * stride + row` as int: overflow for many components (`C58_index_overflow_refuted`). A block size of 0 makes `draw_random_samples` loop forever.
* The atomic RNG with zero components never initialises its device counters but reads them after the loop, so `valid_internal_state()` can become false without any call (`C59_zero_components_refuted`).
* C60: a particle that starts on the boundary and moves within the plane of a side is found departing but no side is found for it, so post_integration throws (C60_along_the_boundary_refuted). A side named by two boundary groups belongs to the greater group only (C60_side_in_two_groups_refuted).
* C62: without device aware MPI the last kernel of `reverse_exchange_from_device` reads `m_recvd_packed`, a host buffer (boundary_mesh_interface.hpp L592), although the data have been copied to `d_recv_packed`. `C62_reverse_exchange_reads_host_memory_refuted` shows the failure on devices that cannot read host memory.
* C62: `get_total_num_exported_geoms` dereferences a null pointer before the first extension of the pattern (not modelled).
* C63: `function_project_contribute` zeroes new entries only when the stage buffer has to grow; the buffer is created with one entry per owned facet and not set, so a facet first seen between initialise and contribute on a rank that owns more facets than it had seen adds uninitialised memory (`C63_new_facets_read_unset_memory_refuted`). If facets are seen after the last contribution, finalise reads beyond the stage buffer (`C63_no_contribution_after_new_facets_refuted`). Remark: contributions are scaled with one inverse cell width in two and three dimensions, although facets of three-dimensional meshes have the area width squared.
* C64: `parallel_advection_initialisation` with `num_steps = 0` throws for valid positions; a position property with more than three components is read behind the end of the 3-vector of the starting point; the test "very far from intended position" accepts any distance in a coordinate whose intended value is zero. A user property named NESO_ORIG_POS would be overwritten and removed.
* C65: passing one GlobalArray twice with Access::add to a loop aborts in wait, because the first impl_post_loop_add resets the stage buffer (`C65_array_added_twice_refuted`). Submitting a loop cell by cell before one wait, which the assertion in particle_loop.hpp L158-160 permits, replaces the stage buffer at each submit: only the contributions of the last submit survive (`C65_submit_by_cells_refuted`).
* C67_wide_elements_refuted: set_recv iterates with an int, so elements of a set of 64-bit integers outside the range of int are changed (only the int instantiation is used inside the library).
* MeshHierarchyContainer: map_cell_buffers is keyed by int while cells are INT, so the objects of cells that agree modulo 2^32 are mixed (`C69_wide_cells_refuted`); byte counts are converted to int in exchange_send_recv_data.
* CellSTDRepresentation::deserialise replaces cones and orientations but appends vertex coordinates, so the object must be empty (`C70_reuse_refuted`).
* DMPlexHelper::get_local_point_from_global_point checks the unsigned number but looks up the number as passed: for the signed number of a point owned by another rank the check passes and point 0 is returned (`C71_signed_refuted`).
* DMPlexInterface::create_halos tests `dmplex_cell_ids` but never inserts into it, so cells found through several mesh hierarchy cells are collected repeatedly; dm_from_serialised_cells tolerates repetitions (C70).
* C72: a mesh element whose upper face lies on an edge between mesh hierarchy cells is not attached to the cell on the other side, although the positions on the face are mapped to that cell: `C72_upper_face_refuted`.
* C72: a mesh element that covers less than a millionth of a cell is attached to the cell but the rank makes no claim for it; a cell covered only like this has no owner: `C72_sliver_refuted`.
* The crossing test of the two-dimensional DMPlex mapper rejects positions inside a horizontal highest side of a cell, and a vertex both of whose neighbours come later in the lexicographic order: on the top of a mesh such positions are in no cell (`C73_top_refuted`).
* `OverlayCartesianMesh::get_intersecting_cells` passes an index of two entries whatever the dimension: in three dimensions its third entry is written (`C73_three_dimensions_refuted`).
* The constructor of the two-dimensional DMPlex mapper expands the bounding box held by the DMPlex helper in place, so the box the helper returns later includes the halo; the number of coordinates of a cell is checked after the vertices were written; cells are only checked if they have an overlay cell.
* In `DMPlexInterface::create_halos` the set `dmplex_cell_ids` is never filled, so an element arrives once for each mesh hierarchy cell it meets (`C74_near`); and elements on a mesh hierarchy cell that no rank owns are not sent although the cell is asked for (`C74_far`).
* QuadraturePointMapper::get resizes its receive buffer to the number of points, not to points times components (quadrature_point_mapper.cpp L328-331); with two or more components the check of the buffer sizes fails as soon as one point is held by another rank (C75_get_refuted).
* QuadraturePointMapper::set copies values only to points which the rank itself holds (L349-379); the values of the other points are silently ignored (C75_set_refuted).
* DOFMapperDG::copy_from_external (dof_mapper_dg.cpp L92) passes the caller's array as the destination of its memcpy: the array is overwritten with the device buffer and the values stored are those the buffer held before (C76_from_external_refuted, C76_stale_refuted).
* C79: the pointers of a SymVector are cached per group and the cache is never emptied for ParticleDats. After `remove_particle_dat` and a new `add_particle_dat` with the same Sym, loops with a SymVector go on with the pointer of the freed dat (`C79_removed_dat_refuted`). `remove_ephemeral_dat` does not empty the cache either (`C79_removed_ephemeral_refuted`), and an EphemeralDat created after a loop over the ParticleDat of the same Sym is not used by SymVector loops although single Sym access uses it (`C79_shadowed_dat_refuted`).
* C80: a trajectory that starts exactly on the upper boundary of the mesh hierarchy (boundary_interaction_common.hpp L93-103 truncates the end cell but not the start cell) is searched in no cell, so a facet on that boundary is missed (`C80_upper_boundary_refuted`).
* C80: if the position dat has three components on a 2D mesh (only at least two are required) the search box is empty in the third dimension and no crossing is ever found (`C80_extra_component_refuted`).
* C80: for a mesh cell without particles the width INT_MIN - INT_MAX + 1 overflows a signed int (common.hpp L238-243); the model wraps around, which is harmless.
* `DMPlexProjectEvaluateDG` without points: `check_ncomp` replaces the coefficients by a new `CellDatConst` with uninitialised entries when a call has more components than before. An `evaluate` with two components after `set_dofs` with one reads uninitialised memory and the coefficients are lost, although the documentation of this constructor says that `evaluate` uses the existing ones (`C81_grow_refuted`). `get_dofs` before any other call returns uninitialised memory too (excluded by `allowed`).
* `DMPlexMeshCouplerDG0` indexes the coefficients of B with `get_local_point_from_global_point`, the number of the cell among the points of the DMPlex, while the arrays have `get_cell_count()` cells, the owned ones (`map_np_to_petsc`). On a DMPlex with cells of other ranks before owned ones in the local numbering the transfers access memory out of bounds or mix up cells (`C82_ghost_cells_refuted`). With owned cells first the two numbers agree.
* `DMPlexHostMapper` writes the number of the point PETSc found as the local cell, without `get_local_cell_index`, which the two-dimensional mapper avoids by looping over local cells: with cells of other ranks before the own cells the cell is wrong (`C84_ghost_cells_refuted`).
* C85_replaced_positions_refuted: `ParticleGroup::add_particle_dat` with a dat flagged as positions replaces the positions dat, after which the old one can be removed. A temporary group that was returned before keeps the old positions dat, and the next `ParticleGroupTemporary::get` fails with "The positions dat cannot be removed".
* Notes on the device functions (no refutation of a stated property): `C36_parallel` - collinear overlapping segments are reported as not crossing; `bitonic8` needs keys for which "neither is less" means equal: each of the two partners of an exchange decides on its own, so with the two zeros or NaN of floating point one key could be duplicated and the other lost.

## Trusted base

* The kernel of Coq 8.16.1. `Print Assumptions` follows every property theorem; all of them are "Closed under the global context" (no axioms, also none of the standard library), except the theorems of C61, which use the real numbers of the standard library and list its axioms `ClassicalDedekindReals.sig_forall_dec`, `ClassicalDedekindReals.sig_not_dec` and `FunctionalExtensionality.functional_extensionality_dep` (C61_reflection: the first and the third only).
* The correspondence between the model and the C++ code: read, not proved. Each definition cites the lines it models.
* MPI is modelled by its guarantees (`Protocol_Model.v`): messages with equal source, destination and tag do not overtake, a barrier waits for all ranks, accumulate operations are atomic and complete at the unlock of the window.
* SYCL is modelled by: work items run in any order, atomic operations take effect in any order, a kernel has completed when its event was waited for.
