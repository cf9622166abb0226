{"id": "C01", "title": "Removing particles keeps exactly the survivors", "statement": "After ParticleGroup::remove_particles(n, cells, layers) each cell holds exactly the particles that were not named in the list: every survivor is still in its own cell with every property value unchanged, no particle is duplicated, the cell counts drop by the number of distinct (cell, layer) entries named, and the layers are again 0..n-1 with no gap.", "quantifier": "all occupancies of all cells, all removal lists (any order, with repeats), all particle data", "why_tests_cant": "The compaction plan is built from prefix sums over every cell; a hole and its filler are paired by arithmetic on those sums, so a wrong pairing only shows for particular interleavings of removed and kept layers, an exponential family.", "anchors": ["include/neso_particles/cell_dat_compression.hpp:LayerCompressor::compute_remove_compress_indicies_dense", "include/neso_particles/cell_dat_compression.hpp:LayerCompressor::remove_particles_inner", "include/neso_particles/particle_group_impl.hpp:ParticleGroup::remove_particles"]}
{"id": "C02", "title": "The compaction copies never conflict", "statement": "While remove_particles compacts a cell, no row is both read and written and no row is written twice, so the result does not depend on the order in which the device executes the copies.", "quantifier": "all occupancies, all removal lists, all orders of execution of the copy kernel's work items", "why_tests_cant": "Races between work items depend on the device scheduler; a test sees a handful of schedules.", "anchors": ["include/neso_particles/cell_dat_compression.hpp:LayerCompressor::remove_particles_inner"]}
{"id": "C03", "title": "cell_move puts every particle in the cell it names", "statement": "After ParticleGroup::cell_move() every particle is stored in the cell given by its cell-id property, the collection of particles (with all property values) is unchanged, and the count of each cell equals the number of particles that name it.", "quantifier": "all cell contents with cell ids in range, all orders in which the device's atomic counters are incremented", "why_tests_cant": "Destination layers come from atomic counters, so the layout depends on the schedule; the claim must hold for each of the n! orders.", "anchors": ["src/cell_dat_move.cpp:CellMove::move", "include/neso_particles/cell_dat_move.hpp:CellMove"]}
{"id": "C04", "title": "New layers handed out by the atomic counter are fresh and dense", "statement": "When new particles are added on device, the layers given to the new particles of one cell are exactly the next free layers of that cell, each given once, whatever the order of the atomic increments; particles with an out-of-range cell get no layer and are not added.", "quantifier": "all existing counts, all lists of requested cells (including invalid ones), all execution orders", "why_tests_cant": "Depends on the interleaving of atomic increments.", "anchors": ["src/particle_group.cpp:ParticleGroup::get_new_layers"]}
{"id": "C05", "title": "Adding a ParticleSet appends exactly its particles", "statement": "After add_particles_local(particle_set), each cell contains its old particles, unchanged and in their old layers, followed by the new particles that name the cell, in order, with the given property values and with zero for properties the set lacks. Other cells are unchanged.", "quantifier": "all group contents, all particle sets whose cell ids are in range, all property specifications", "why_tests_cant": "Needs all interleavings of target cells and all combinations of present and missing properties.", "anchors": ["src/particle_group.cpp:ParticleGroup::add_particles_local(std::shared_ptr<ParticleSet>)", "include/neso_particles/particle_dat.hpp:ParticleDatT::append_particle_data"]}
{"id": "C06", "title": "Adding another group or sub-group appends its particles cell by cell", "statement": "After add_particles_local(other_group) each cell holds its old particles unchanged followed by the other group's particles of the same cell; properties the source lacks are zero; the source is unchanged.", "quantifier": "all contents of both groups with equal cell counts, all property specifications", "why_tests_cant": "The row arithmetic must be right for each pair of occupancies.", "anchors": ["src/particle_group.cpp:ParticleGroup::add_particles_local(std::shared_ptr<ParticleGroup>)", "src/particle_group.cpp:ParticleGroup::add_particles_local(std::shared_ptr<ParticleSubGroup>)"]}
{"id": "C07", "title": "Adding products places each product in its cell with its values", "statement": "After add_particles_local(product_matrix) each product becomes one particle in the cell given by its cell-id property (or its parent's cell), with the matrix's values for the properties in the matrix and the parent's values (or zero) for the others.", "quantifier": "all product specifications, all product data, all parent assignments", "why_tests_cant": "The cell column is located by index arithmetic over the specification; only some specifications expose an error.", "anchors": ["src/particle_group.cpp:ParticleGroup::add_particles_local(std::shared_ptr<ProductMatrix>)", "include/neso_particles/containers/product_matrix.hpp:ProductMatrix", "include/neso_particles/containers/descendant_products.hpp:DescendantProducts"]}
{"id": "C08", "title": "Pack followed by unpack is the identity on particle data", "statement": "A particle packed for another rank and unpacked there has every component of every property equal to what it had on the sender, for every property specification; particles from different messages never overwrite each other.", "quantifier": "all specifications (numbers and sizes of REAL and INT properties), all particle data, all numbers of particles per message", "why_tests_cant": "The byte offsets are sums over the specification; a collision appears only for particular mixes of component counts.", "anchors": ["src/packing_unpacking.cpp:ParticlePacker::pack", "src/packing_unpacking.cpp:ParticleUnpacker::unpack", "src/packing_unpacking.cpp:ParticlePacker::get_packed_pointers"]}
{"id": "C09", "title": "Global move conserves particles and delivers each to the named rank", "statement": "After global_move on all ranks, the multiset of particles over all ranks is unchanged and each particle whose MPI rank property (component 0) names another valid rank is on that rank; the other particles stay on their rank.", "quantifier": "all numbers of ranks, all distributions of particles, all execution orders on each rank and all message arrival orders", "why_tests_cant": "Distributed: the number of interleavings of sends, receives and atomics is unbounded.", "anchors": ["include/neso_particles/global_move.hpp:GlobalMove::move", "include/neso_particles/global_move_exchange.hpp:GlobalMoveExchange", "src/departing_particle_identification.cpp:DepartingIdentify::identify"]}
{"id": "C10", "title": "Departing particles are identified exactly once", "statement": "The departure pass lists each particle whose rank property names a valid remote rank exactly once, gives the particles for one rank the packing layers 0..n-1 without repeats, and registers each destination rank exactly once.", "quantifier": "all particle rank values (also negative and too large), all execution orders of the atomics", "why_tests_cant": "Depends on the interleaving of three atomic counters.", "anchors": ["src/departing_particle_identification.cpp:DepartingIdentify::identify"]}
{"id": "C11", "title": "Local move conserves particles among neighbours", "statement": "After local_move on all ranks the multiset of particles is unchanged and each particle whose local rank property names a neighbour rank is on that rank.", "quantifier": "all neighbour graphs, all distributions of particles, all orders of execution and message arrival", "why_tests_cant": "Distributed with an arbitrary neighbour graph.", "anchors": ["include/neso_particles/local_move.hpp:LocalMove::move", "include/neso_particles/local_move.hpp:LocalMove::npart_exchange_sendrecv"]}
{"id": "C12", "title": "Group counters agree with the contents", "statement": "After any sequence of add, remove and move operations, get_npart_local() is the sum of get_npart_cell(c), the exclusive-sum table is the prefix sum of the counts and every property reports the same counts.", "quantifier": "all finite histories of operations on a group", "why_tests_cant": "Ranges over unbounded histories.", "anchors": ["include/neso_particles/particle_group.hpp:ParticleGroup::recompute_npart_cell_es", "include/neso_particles/particle_group.hpp:ParticleGroup::set_npart_cell_from_dat", "include/neso_particles/particle_dat.hpp:ParticleDatT::set_npart_cells_host"]}
{"id": "C13", "title": "The parallel exclusive scan equals the sequential prefix sum", "statement": "joint_exclusive_scan writes to element i the sum of elements 0..i-1, for any length, work-group size and number of work groups.", "quantifier": "all lengths, all inputs, all positive work-group sizes and counts", "why_tests_cant": "The two-level decomposition has boundary cases for each residue of the length by the block size.", "anchors": ["include/neso_particles/algorithms/common.hpp:joint_exclusive_scan", "src/algorithms/common.cpp:joint_exclusive_scan"]}
{"id": "C14", "title": "Block decomposition of a range is a partition with a correct inverse", "statement": "get_decomp_1d(U, N, i) for i = 0..U-1 gives consecutive intervals that partition 0..N-1 with sizes differing by at most one, and get_decomp_1d_inverse returns the interval that contains an index.", "quantifier": "all N, all U > 0, all indices", "why_tests_cant": "Ranges over all pairs (N, U).", "anchors": ["include/neso_particles/typedefs.hpp:get_decomp_1d", "include/neso_particles/typedefs.hpp:get_decomp_1d_inverse"]}
{"id": "C15", "title": "A particle loop visits each particle exactly once", "statement": "The kernel of a particle loop executes exactly once for each particle (cell, layer) of the iteration set and for nothing else, whatever the local size, number of bins and stride used to build the iteration set, and for the whole group, one cell or a range of cells.", "quantifier": "all occupancies, all local sizes, all strides, all cell ranges", "why_tests_cant": "Cell occupancy minimum, peel loops, masks and strides give many boundary cases.", "anchors": ["src/loop/particle_loop_iteration_set.cpp:ParticleLoopBlockIterationSet::get_generic", "include/neso_particles/loop/particle_loop_iteration_set.hpp:ParticleLoopBlockDevice"]}
{"id": "C16", "title": "Linear loop indices are unique and dense", "statement": "get_local_linear_index() and get_loop_linear_index() map the particles of a loop one-to-one onto 0..n-1.", "quantifier": "all occupancies, all loop types (all cells, range of cells, sub-group)", "why_tests_cant": "Must hold for each distribution of particles over cells.", "anchors": ["include/neso_particles/loop/particle_loop_index.hpp:Access::LoopIndex::Read"]}
{"id": "C17", "title": "Mesh hierarchy tuple and linear indices are mutually inverse", "statement": "tuple_to_linear_global and linear_to_tuple_global (and the coarse and fine versions) are mutually inverse bijections between cell tuples and 0..n-1.", "quantifier": "all dimensions, all cell counts, all subdivision orders, all tuples", "why_tests_cant": "Ranges over all mesh shapes.", "anchors": ["src/mesh_hierarchy.cpp:MeshHierarchy::tuple_to_linear_global", "src/mesh_hierarchy.cpp:MeshHierarchy::linear_to_tuple_global"]}
{"id": "C18", "title": "Claiming a mesh hierarchy cell elects a single owner", "statement": "After all ranks call claim_cell any number of times and then claim_finalise, each cell has the same owner on all ranks: a rank that made the claim with the greatest weight (the greatest such rank when tied); cells nobody claimed have no owner. The order of the claims is irrelevant.", "quantifier": "all numbers of ranks, all claims and weights, all orders", "why_tests_cant": "Election by three reduction phases must be right for each claim pattern and order.", "anchors": ["src/mesh_hierarchy.cpp:MeshHierarchy::claim_cell", "src/mesh_hierarchy.cpp:MeshHierarchy::claim_finalise"]}
{"id": "C19", "title": "Mesh hierarchy neighbours are exactly the cells within the offset", "statement": "For a single cell, get_neighbour_mh_cells(cell, offset) returns exactly the other cells at most offset away in each dimension with periodic wrap-around. For a list of cells it returns, in ascending order and without duplicates, exactly the cells of the list, the extra cells passed in and the cells at most offset away from a listed cell. The offset is at most the number of cells in each dimension.", "quantifier": "all mesh shapes, all cell lists, all offsets", "why_tests_cant": "Ranges over all shapes; wrap-around corner cases.", "anchors": ["src/mesh_hierarchy.cpp:get_neighbour_mh_cells"]}
{"id": "C20", "title": "A position maps to the mesh hierarchy cell that contains it", "statement": "For a position inside the domain, the device mapper returns a cell tuple inside the index ranges whose box contains the position.", "quantifier": "all positions inside the domain, all origins, cell widths, subdivision orders", "why_tests_cant": "Truncation and rescaling must be right for each position.", "anchors": ["include/neso_particles/mesh_hierarchy.hpp:MeshHierarchyDeviceMapper", "src/global_mapping.cpp:MeshHierarchyGlobalMap::execute"]}
{"id": "C21", "title": "BlockedBinaryTree behaves as a finite map", "statement": "After any sequence of add(key, value) calls, get(key) returns the value last added for key, or nothing if the key was never added; no add affects another key.", "quantifier": "all finite histories of adds, all keys (including negative), all block widths", "why_tests_cant": "Ranges over unbounded histories and key sets.", "anchors": ["include/neso_particles/containers/blocked_binary_tree.hpp:BlockedBinaryTree::add", "include/neso_particles/containers/blocked_binary_tree.hpp:BlockedBinaryNode::get"]}
{"id": "C22", "title": "LookupTable behaves as a bounded finite map", "statement": "After any sequence of add calls on a LookupTable, get(key) on device and host returns the value last added for a key in range, and nothing for keys never added or out of range.", "quantifier": "all table sizes, all histories of adds, all keys", "why_tests_cant": "Ranges over unbounded histories.", "anchors": ["include/neso_particles/containers/lookup_table.hpp:LookupTable"]}
{"id": "C23", "title": "NDIndex linearises one-to-one", "statement": "nd_index linear indices are a bijection between the index tuples inside the shape and 0..size-1.", "quantifier": "all numbers of dimensions, all shapes, all tuples", "why_tests_cant": "Ranges over all shapes.", "anchors": ["include/neso_particles/containers/nd_index.hpp:NDIndex"]}
{"id": "C24", "title": "A sub-group contains exactly the selected particles", "statement": "When a ParticleSubGroup is created from a kernel, its map lists, for each cell, exactly the layers of the parent's particles for which the kernel returned true, each once, for any execution order; the counts and the exclusive sum agree.", "quantifier": "all parents (groups and sub-groups), all selections, all execution orders of the atomics; for the order-preserving selector, all parents that are not rebuilt between its two loops, on ranks with at least one cell", "why_tests_cant": "Depends on schedules and on every subset of particles.", "anchors": ["src/particle_sub_group/sub_group_selector.cpp:SubGroupSelector::create", "include/neso_particles/particle_sub_group/sub_group_selector.hpp:SubGroupSelector", "include/neso_particles/particle_sub_group/sub_group_selector_exclusive_scan.hpp:SubGroupSelectorExclusiveScan"]}
{"id": "C25", "title": "A non-static sub-group is never stale", "statement": "Whenever a non-static sub-group is used, the selection it iterates over equals the selection computed from the current group contents, whatever property writes, particle additions, removals and moves happened since the last use.", "quantifier": "all finite histories of operations and uses", "why_tests_cant": "Caching correctness over unbounded histories.", "anchors": ["src/particle_sub_group/sub_group_selector_base.cpp:SubGroupSelectorBase::get", "src/particle_group.cpp:ParticleGroup::check_validation", "include/neso_particles/particle_group.hpp:ParticleGroup::invalidate_callback_inner", "src/particle_sub_group/particle_sub_group_base.cpp:ParticleSubGroup::create_if_required"]}
{"id": "C26", "title": "A static sub-group is frozen and detects structural changes", "statement": "After static_status(true) the selection does not change on property writes, and any use after particles were added, removed or moved is reported as an error rather than silently iterating over wrong particles.", "quantifier": "all finite histories of operations and uses", "why_tests_cant": "Ranges over unbounded histories.", "anchors": ["src/particle_sub_group/particle_sub_group_base.cpp:ParticleSubGroup::static_status", "src/particle_sub_group/particle_sub_group_base.cpp:ParticleSubGroup::is_valid"]}
{"id": "C27", "title": "Truncate and discard split each cell", "statement": "particle_sub_group_truncate(parent, n) selects the first n particles of each cell of the parent and particle_sub_group_discard(parent, n) the rest: together they are the parent and they are disjoint.", "quantifier": "all parents (groups and sub-groups) on ranks with at least one cell, all n >= 0", "why_tests_cant": "Must hold for each occupancy.", "anchors": ["src/particle_sub_group/truncate_sub_group_selector.cpp:TruncateSubGroupSelector::create", "src/particle_sub_group/discard_sub_group_selector.cpp:DiscardSubGroupSelector::create"]}
{"id": "C28", "title": "Cell-range, copy and union sub-groups select what they say", "statement": "The sub-group of a cell range contains exactly the parent's particles in the range; a copy contains exactly its source; a disjoint union contains exactly the particles of its parents.", "quantifier": "all parents, all cell ranges (including empty), all lists of disjoint parents (union: on ranks with at least one cell)", "why_tests_cant": "Must hold for each combination of occupancies and for whatever state the pooled buffers were left in by earlier users.", "anchors": ["src/particle_sub_group/cell_sub_group_selector.cpp:CellSubGroupSelector::create", "src/particle_sub_group/copy_selector.cpp:CopySelector::create", "src/particle_sub_group/disjoint_union_sub_group_selector.cpp:DisjointUnionSubGroupSelector::create"]}
{"id": "C29", "title": "particle_group_partition partitions", "statement": "particle_group_partition(parent, sym, n) gives n sub-groups; sub-group i contains exactly the particles with sym value i; particles with other values are in none.", "quantifier": "all parents that are not rebuilt between the two loops, on ranks with at least one cell, all property values, all n, all execution orders, any subset of the sub-groups already destroyed", "why_tests_cant": "Schedules and arbitrary values.", "anchors": ["src/particle_sub_group/particle_group_partition.cpp:ParticleGroupPartitioner::create", "include/neso_particles/particle_sub_group/particle_group_partition.hpp:particle_group_partition"]}
{"id": "C30", "title": "get_particles returns the requested particles", "statement": "ParticleGroup::get_particles(cells, layers) returns a ParticleSet whose i-th particle has all the properties of the particle at (cells[i], layers[i]); out-of-range requests and lists of different lengths are an error. The same holds for sub-groups, with the layers of the sub-group. Adding the returned set to the group duplicates the requested particles.", "quantifier": "all groups, all request lists (with repeats)", "why_tests_cant": "All lists and specifications.", "anchors": ["src/particle_group.cpp:ParticleGroup::get_particles", "src/particle_set.cpp:ParticleSet"]}
{"id": "C31", "title": "Product and particle-set storage never aliases", "statement": "In ProductMatrix and ParticleSetDevice, distinct (property, component, row) triples address distinct storage inside the allocation, so writing one leaves all others unchanged. After any history of resets, default values, kernel writes, atomic adds and copies from a ParticleSet, each element holds its last value or the default since the last reset, for kernels and for get(). Writes to a ParticleSet (element, column, another set) change exactly what they name; wrong lengths, components and particle counts are errors. DescendantProducts gives each (parent, product) pair its own row and records its parent.", "quantifier": "all specifications, all numbers of products, all histories of calls, all orders of the concurrent fills", "why_tests_cant": "Ranges over all specifications.", "anchors": ["include/neso_particles/containers/product_matrix.hpp:ProductMatrixGetConst", "src/containers/particle_set_device.cpp:ParticleSetDevice", "src/particle_set.cpp:ParticleSet", "include/neso_particles/containers/descendant_products.hpp:DescendantProducts"]}
{"id": "C32", "title": "Growing a cell keeps its rows", "statement": "CellDat::set_nrow to a larger size keeps the existing rows of every column; setting it smaller keeps the remaining rows; other cells never change.", "quantifier": "all sequences of resizes and writes", "why_tests_cant": "Reallocation policy gives different paths for each history.", "anchors": ["include/neso_particles/containers/cell_dat.hpp:CellDat::set_nrow_inner"]}
{"id": "C33", "title": "Compare-and-swap maximum and minimum are linearisable", "statement": "atomic_fetch_max and atomic_fetch_min built on compare-exchange leave the maximum (minimum) of all contributions in memory and return the value replaced, under any interference by other work items.", "quantifier": "all interleavings, all values", "why_tests_cant": "Concurrency: unbounded interleavings and retries.", "anchors": ["include/neso_particles/device_functions.hpp:atomic_fetch_max_cas_strong", "include/neso_particles/device_functions.hpp:atomic_fetch_min_cas_strong"]}
{"id": "C34", "title": "The bitonic network sorts any eight keys", "statement": "bitonic8 returns its eight input values in ascending order.", "quantifier": "all inputs of a totally ordered type", "why_tests_cant": "All inputs of an infinite (or 64-bit) type; the 0-1 principle turns this into a proof.", "anchors": ["include/neso_particles/device_functions.hpp:bitonic8"]}
{"id": "C35", "title": "Small matrix inverse is an inverse", "statement": "The explicit 3x3 and 4x4 inverse routines return a matrix whose product with the input is the identity whenever the determinant is non-zero.", "quantifier": "all matrices over a field with non-zero determinant", "why_tests_cant": "Polynomial identity over all matrices.", "anchors": ["include/neso_particles/device_functions.hpp:naive_matrix_inverse"]}
{"id": "C36", "title": "Line segment intersection reports real intersections", "statement": "When the 2D line segment routine reports an intersection the returned point lies on both segments, and it reports one whenever two non-parallel segments have a common point (exact arithmetic, tolerance 0). The same holds for the axis aligned version in 2D and for a segment and an axis aligned rectangle in 3D.", "quantifier": "all quadruples of points", "why_tests_cant": "Quantifies over all geometry.", "anchors": ["include/neso_particles/device_functions.hpp:line_segment_intersection_2d", "include/neso_particles/device_functions.hpp:line_segment_intersection_2d_x_axis_aligned", "include/neso_particles/device_functions.hpp:plane_intersection_3d_xy_plane_aligned"]}
{"id": "C37", "title": "A pooled resource has one user at a time", "statement": "ResourceStack::get never returns an object that is still held by another user, and every object created is either held or available until freed.", "quantifier": "all sequences of get, restore and free", "why_tests_cant": "Unbounded histories.", "anchors": ["include/neso_particles/containers/resource_stack.hpp:ResourceStack", "include/neso_particles/containers/resource_stack_map.hpp:ResourceStackMap"]}
{"id": "C38", "title": "Matrix transpose transposes", "statement": "matrix_transpose writes element (i, j) of the source to element (j, i) of the destination for every element.", "quantifier": "all matrix shapes and contents", "why_tests_cant": "Tiled kernel with boundary cases for each shape.", "anchors": ["include/neso_particles/algorithms/common.hpp:matrix_transpose"]}
{"id": "C39", "title": "Communication of successive moves never mixes or blocks", "statement": "When all ranks call the same sequence of global and local moves, each call on each rank receives exactly the messages sent to it by the corresponding calls of the other ranks; no interleaving deadlocks, also when sends only complete once received, and every execution ends with all calls complete and no message in flight. After constructing a LocalMove each rank knows exactly the ranks that list it as a neighbour.", "quantifier": "all numbers of ranks, sequences of moves, message contents, interleavings, matching orders and orders of the window updates", "why_tests_cant": "Concurrency: races between ranks that are in different moves appear only for particular timings.", "anchors": ["include/neso_particles/global_move_exchange.hpp:GlobalMoveExchange", "include/neso_particles/local_move.hpp:LocalMove"]}
{"id": "C40", "title": "Line orientation is canonical", "statement": "consistent_line_orientation_2d returns the two given end points in an order that does not depend on the order in which they were given.", "quantifier": "all pairs of points", "why_tests_cant": "Quantifies over all geometry, including vertical and degenerate lines.", "anchors": ["include/neso_particles/device_functions.hpp:consistent_line_orientation_2d"]}
{"id": "C41", "title": "All-to-all iteration visits every pair once", "statement": "When each work item of a work group (of a power of two size) applies CellwiseAllToAll to n particles, the kernel is called exactly once for every unordered pair of distinct particles over all work items; every work item calls the synchronisation function equally often; and calls made by different work items between the same two synchronisations never have the same second particle.", "quantifier": "all particle numbers, all work group sizes that are powers of two, all work items, all interleavings between synchronisations", "why_tests_cant": "Tests use a few particle numbers and one work group size; the blocking has boundary cases for each of them.", "anchors": ["include/neso_particles/algorithms/dsmc/cellwise_all_to_all.hpp:CellwiseAllToAll::apply"]}
{"id": "C42", "title": "Host pair lists are scheduled into conflict-free waves", "statement": "CellwisePairListHost sorts the pairs pushed to it into waves per cell: every pushed pair is in exactly one wave of its cell, a pair that shares a particle with an earlier pushed pair is in a later wave, no pair is in a later wave than these rules require, no wave is empty, and no particle occurs twice in a wave (if no pair joins a particle with itself). Pushes to cells that do not exist are reported.", "quantifier": "all sequences of pushes: any number of cells, pairs and particles", "why_tests_cant": "Whether two pairs meet in a wave depends on the whole history of pushes.", "anchors": ["src/pair_loop/cellwise_pair_list_host.cpp:CellwisePairListHost::push_back"]}
{"id": "C43", "title": "A device pair list holds what it was given", "statement": "After any sequence of push_back, set and clear calls (with a clear between a set and the next push_back) get_host_pair_list, and the accessors kernels use, return exactly the pairs that were pushed since the last clear, or the waves of the host list last set, in order; the pair numbers of the list are 0..n-1; push_back with an invalid cell is reported.", "quantifier": "all histories of calls, cell counts and pairs, all schedules of the kernels involved, all contents of new memory", "why_tests_cant": "Unbounded histories with buffers that grow, shrink and are reused; the offsets are computed on the device.", "anchors": ["src/pair_loop/cellwise_pair_list_simple.cpp:CellwisePairListSimple::push_back", "src/pair_loop/cellwise_pair_list_simple.cpp:CellwisePairListSimple::set", "include/neso_particles/pair_loop/cellwise_pair_list.hpp:CellwisePairListDevice"]}
{"id": "C44", "title": "A pair loop calls its kernel once per pair, wave by wave", "statement": "A ParticlePairLoop over cellwise pair lists calls its kernel exactly once for each pair of each list in the given range of cells, with the particles, cell and list of that pair; calls for a later wave of a cell of a list take effect after all calls of its earlier waves; when all lists are filled the pair numbers passed to the kernel are 0..n-1, each once; calls of a wave that belong to the same list share no particle if the list was set from a host list.", "quantifier": "all numbers of lists, contents, cell ranges, work group sizes, device types and interleavings of work items and work groups", "why_tests_cant": "Interleavings of work groups and all shapes of the lists.", "anchors": ["include/neso_particles/pair_loop/particle_pair_loop_cellwise_pair_list.hpp:ParticlePairLoop::submit"]}
{"id": "C45", "title": "A pair loop over host-made lists is serialisable", "statement": "If the lists of a pair loop were set from host lists that share no particles, the particle data after the loop are those obtained by applying the kernel to the pairs one after the other in the order in which they were pushed, whatever the interleaving of the calls.", "quantifier": "all kernels, particle data, pushes, cell ranges, work group sizes and interleavings", "why_tests_cant": "The result must not depend on the schedule.", "anchors": ["include/neso_particles/pair_loop/particle_pair_loop_cellwise_pair_list.hpp:ParticlePairLoop::submit", "src/pair_loop/cellwise_pair_list_host.cpp:CellwisePairListHost::push_back"]}
{"id": "C46", "title": "Collision cell partitions hold the particles they were built from", "statement": "After any number of CollisionCellPartition::construct calls, kernels read for every mesh cell, collision cell and known species exactly the particles of that species and collision cell of the last call (each once); an unknown species is reported as unknown; the occupancy reported is the largest number of particles of a species in a collision cell; get_max_num_pairs reports for each collision cell the largest number of pairs that can be sampled, which without replacement is the size of the largest set of disjoint pairs.", "quantifier": "all histories of constructions, numbers of mesh and collision cells, species sets, particles, schedules of the binning kernels and contents of new memory", "why_tests_cant": "The particles are binned by atomics in any order into buffers reused between constructions.", "anchors": ["src/algorithms/dsmc/collision_cell_partition.cpp:CollisionCellPartition::construct", "src/algorithms/dsmc/collision_cell_partition.cpp:CollisionCellPartition::get_max_num_pairs", "include/neso_particles/algorithms/dsmc/collision_cell_partition.hpp:CollisionCellPartitionDevice"]}
{"id": "C47", "title": "Pairs sampled without replacement are the pairs asked for", "statement": "After any number of calls, PairSamplerNoReplacement::sample leaves a pair list that holds for every collision cell exactly the number of pairs asked for by the last call, the first particle of each pair of the first species and the second of the second species, both in that collision cell, and no particle twice; this holds whatever the random numbers are, and every such choice of pairs can result for random numbers in [0, 1). A pair loop over the list calls its kernel once per pair, no two of its calls use the same particle, and the particle data become those of a sequential run over the pairs.", "quantifier": "all partitions that construct can produce, histories of calls, numbers of pairs up to get_max_num_pairs, random numbers, schedules, work group sizes and kernels", "why_tests_cant": "Random numbers, schedules and particle distributions cannot be enumerated; a particle used twice is a data race.", "anchors": ["src/algorithms/dsmc/pair_sampler_no_replacement.cpp:PairSamplerNoReplacement::sample", "src/algorithms/dsmc/pair_sampler_no_replacement.cpp:PairSamplerNoReplacement::get_host_pair_list"]}
{"id": "C48", "title": "Pair sampling with replacement: members, own samples, waves per block", "statement": "PairSamplerNTC::sample gives each cell as many pairs as asked for. Each pair is drawn with two random numbers that no other pair uses, and consists of a particle of each sub-group in that cell (two different particles if the sub-groups are the same object); for numbers in [0,1) all possible pairs have equal shares of the unit square. The pairs of a cell are cut into blocks of the loop's local size; in each block, pairs that share a particle are in different waves, the waves are 0, 1, ... with none empty, their number is as stored, and the largest number over all blocks is as stored and at most the block size. On a CPU, pairs of a block that share a particle are in the order of the list. Asking for pairs where there are too few particles is refused.", "quantifier": "all numbers of cells, block sizes, selections, numbers of pairs and random numbers; all schedules of work items, all interleavings of their atomic operations, all previous contents of memory; CPU and GPU algorithms", "why_tests_cant": "The GPU algorithm resolves conflicts with atomics whose interleavings cannot be enumerated; a wrong wave is a data race in the kernel that uses the list.", "anchors": ["src/algorithms/dsmc/pair_sampler_ntc.cpp:PairSamplerNTC::sample", "include/neso_particles/pair_loop/cellwise_pair_list_block.hpp:CellwisePairListBlockDevice"]}
{"id": "C49", "title": "Pair loops over block pair lists execute every pair once, in an order that is equivalent to running the pairs one after the other", "statement": "For well-formed block pair lists (those the sampler makes are well-formed), a pair loop over a range of cells calls the kernel exactly once for each pair of these cells, with the particles of the pair and its number in the concatenation of the lists. Calls that are concurrent within a work group share no particle. If no two lists have pairs with a common particle, every order in which the calls may take effect leaves the particle data that running the kernel one pair after the other leaves, and if the lists were sampled on a CPU, this is the order of the lists. A loop with another work-group size than the block size of the list is refused.", "quantifier": "all well-formed lists, cell ranges, block sizes, kernels, particle data, CPU and GPU variants, and all interleavings of the work groups and of the calls between barriers", "why_tests_cant": "Unit tests run one device, whose scheduler realises one interleaving, with commutative kernels on a few sampled lists; races and order dependence need all interleavings.", "anchors": ["include/neso_particles/pair_loop/particle_pair_loop_cellwise_pair_list_block.hpp: ParticlePairLoopCellwisePairListBlock::submit", "include/neso_particles/pair_loop/cellwise_pair_list_block.hpp: CellwisePairListBlockDevice"]}
{"id": "C50", "title": "The validity check of a block pair list accepts exactly the lists the block pair loop can run, and its occupancy statistics are exact", "statement": "For a pair list whose memory can be read, validate_pair_list returns true if and only if the pairs of the cells are numbered consecutively, their total is the declared one, no pair joins a particle with itself, in every block pairs of one wave have no particle in common, the recorded number of waves of each block is the largest wave used plus one and within the declared maximum, and the maximum does not exceed the block size; such a list is run by the block pair loop with every pair exactly once. Every list made by the sampler is accepted unless it has a pair of a particle and itself. The host copy of a list has for each cell exactly the particles and waves of its pairs in order. Entry n of the occupancy counts is the number of waves that execute n pairs, the mean occupancy is the number of pairs divided by the number of places in all executed waves, and the global counts are the sums over the ranks on rank 0; ranks with different sizes are refused.", "quantifier": "all lists (any number of cells, pairs, block size and contents), all schedules of work items and work groups, all numbers of ranks", "why_tests_cant": "A check that misses one kind of conflict accepts lists that race only under some schedules; tests of the check use lists made by the sampler, which are valid, and a few broken ones.", "anchors": ["src/pair_loop/cellwise_pair_list_block.cpp: get_host_pair_list, validate_pair_list, get_wave_occupancy_counts, get_mean_wave_occupancy, get_global_wave_occupancy_counts"]}
{"id": "C51", "title": "A Cartesian mesh is distributed so that every cell has exactly one owner and all owner queries agree", "statement": "CartesianHMesh distributes its cells over the ranks of the Cartesian communicator it makes. get_owned_cells lists, for every rank, distinct cells of the grid and at least one; every cell of the grid is listed by exactly one rank. get_mesh_tuple_owning_rank names that rank, and so does the mesh hierarchy's map of owners on every node, whatever the order of the one-sided accumulations and the previous contents of the shared windows. The local cell ids 0..count-1 are the rank's cells, one each, and other ids are rejected. get_local_communication_neighbours returns exactly the ranks owning a cell at most the stencil width away from an own cell, with periodic wrapping: the relation is symmetric and includes the rank itself. The chosen decomposition has as many ranks as the communicator and at least one cell per rank in every dimension, and one is found whenever some dimension has at least as many cells as there are ranks, whatever MPI_Dims_create returns.", "quantifier": "all meshes in two or three dimensions (and any grid of one to three dimensions for the ownership claims): dimensions, extents, subdivision orders, stencil widths, communicator sizes and grids, numberings of the ranks, placements on nodes, orders of the accumulations, previous window contents, results of MPI_Dims_create", "why_tests_cant": "Tests run a few meshes on a few ranks on one node with one MPI's numbering; ownership must be a partition for every mesh, decomposition and rank numbering.", "anchors": ["src/cartesian_mesh/cartesian_h_mesh.cpp: CartesianHMesh::CartesianHMesh, get_owned_cells, get_mesh_tuple_owning_rank, get_global_cell_tuple_index, get_local_communication_neighbours", "src/utility.cpp / utility.hpp: get_reordered_cart_decomp, get_lower_dimension_cart_decomp, get_single_dimension_cart_decomp", "mesh_hierarchy.hpp: claim_cell, claim_finalise, get_owner"]}
{"id": "C52", "title": "On a Cartesian mesh particles are mapped to the cell and the rank that contain them", "statement": "CartesianPeriodic moves every position into the half open domain by a whole number of domain lengths, in the chosen dimensions only. CartesianCellBin writes a valid local cell id, and the id of the cell that contains the particle whenever the rank owns that cell. The constructor of the local mapper never fails its own consistency test, and the mapper writes as local rank the owner of the containing cell if that cell is within the stencil of the rank's cells (with wrapping) and -1 otherwise. MeshHierarchyGlobalMap writes as rank the owner of the containing cell for exactly the particles that have no local rank, in any kernel order; particles above the domain by more than the tolerance are reported. Resetting the ranks sets both to -1. The upper end of the domain belongs to the last cell. Nothing else of any particle changes. get_point_in_subdomain returns a point in a cell the rank owns. (Positions below the origin are not reported: refuted.)", "quantifier": "all Cartesian meshes of one to three dimensions, distributions over ranks, stencil widths, groups of particles, positions (closed domain for the rank maps; within the range of a C++ int for the periodic map and the cell map), masks, kernel schedules, contents of new memory", "why_tests_cant": "Tests sample positions on a few meshes; a particle on a cell face, on the upper end of the domain or next to a region of another rank must be mapped correctly for every mesh and distribution.", "anchors": ["src/cartesian_mesh/cartesian_periodic.cpp", "src/cartesian_mesh/cartesian_cell_bin.cpp: CartesianCellBin::get_loop", "src/cartesian_mesh.cpp: CartesianHMeshLocalMapperT constructor, map", "src/global_mapping.cpp: MeshHierarchyGlobalMap::execute, reset_mpi_ranks", "src/cartesian_mesh/cartesian_h_mesh.cpp: get_point_in_subdomain"]}
{"id": "C53", "title": "The face cells of a Cartesian mesh are the facets of its boundary, each owned by the rank that owns the cell behind it", "statement": "The face cell ids 0..n-1 of a CartesianHMesh correspond one to one to the facets of fine cells on the sides of the domain (a cell in a corner has several), n is the number of such facets and other ids are rejected. Converting an id to a tuple and back gives the id. get_face_id_owning_rank names the rank that owns the cell behind the facet. get_owned_face_cells lists exactly the face cells the rank owns in ascending order, so every face cell is listed by exactly one rank; get_all_face_cells_on_face lists exactly those on the given side, and get_face_cells concatenates these lists. The points returned for a face cell are 2 (in 2D) or 4 (in 3D) different corners of the cell behind it and lie on the side of the domain.", "quantifier": "all meshes of two or three dimensions: dimensions, extents, subdivision orders, decompositions and numberings of the ranks, all face cell ids, sides and ranks", "why_tests_cant": "Tests check a few meshes; index arithmetic with offsets and strides per side must be a bijection for every combination of dimensions, and ownership a partition for every decomposition.", "anchors": ["src/cartesian_mesh/cartesian_h_mesh.cpp: compute_owned_face_indices, get_face_id_as_tuple, get_mesh_tuple_owning_face_tuple, get_face_linear_index_from_tuple, get_face_id_owning_rank, get_vtk_face_cell_points, get_all_face_cells_on_face", "cartesian_h_mesh.hpp: get_face_cells"]}
{"id": "C54", "title": "hybrid_move and cell_move bring every particle to the rank and cell of its position", "statement": "On a CartesianHMesh, if all positions are in the closed domain, hybrid_move succeeds on all ranks and afterwards every particle is on the rank that owns the mesh cell that contains its position; a following cell_move succeeds and every particle is in the cell that contains it. No particle is lost or duplicated, and nothing of it changes but its MPI rank components and, in cell_move, its cell id. With CartesianPeriodic applied first this holds for positions anywhere (up to 2^31-2 domain lengths away), the position being wrapped by whole domain lengths. Afterwards the groups again meet the requirements of a move, so the property holds along any sequence of time steps.", "quantifier": "all 2D and 3D meshes, decompositions, numbers of ranks, stencil widths, distributions of the particles, previous values of the rank components, device schedules, contents of uninitialised memory and arrival orders of messages", "why_tests_cant": "Tests advect some particles on a few ranks and check where they end; the composition of two maps and two kinds of moves must be right for every position, start rank and stencil width, in particular at the edge of the stencil.", "anchors": ["src/particle_group.cpp: hybrid_move, cell_move", "src/cartesian_mesh.cpp: CartesianHMeshLocalMapperT", "src/global_mapping.cpp: reset_mpi_ranks, MeshHierarchyGlobalMap::execute", "global_move.hpp", "local_move.hpp", "src/cell_dat_move.cpp"]}
{"id": "C55", "title": "A CellDatConst is an array of matrices, one per cell", "statement": "After the construction and any sequence of fill, set_value, set_cell, set_all_cells and of writes and atomic updates by kernels (by row and column, or by component) with indices and matrices of the right size, get_value, get_cell, get_all_cells and the reads of kernels all give the contents which that sequence prescribes; an atomic update returns the value it replaced. A set_cell with a matrix with more rows is accepted, but does not store its upper left part.", "quantifier": "all numbers of cells, rows and columns, all sequences of calls, all contents of uninitialised memory", "why_tests_cant": "Tests set and read some entries; that no two (cell, row, column) share memory and that all access paths agree on the layout must hold for all shapes and sequences.", "anchors": ["include/neso_particles/containers/cell_dat_const.hpp: CellDatConst, CellDatConstDeviceType"]}
{"id": "C56", "title": "Cellwise reductions combine each entry with the values of the particles in that cell", "statement": "reduce_dat_component_cellwise combines in each cell the entry (row, col) with the component of every particle of the group or sub-group in that cell, each exactly once, and leaves the other entries alone; reduce_dat_components_cellwise does so for all components, component r * ncol + q into entry (r, q). Wrong numbers of cells and entries outside of the matrix are refused. More components than entries are accepted although the documentation says the numbers must match: the surplus components end up in entry (0, 0).", "quantifier": "all groups and sub-groups, numbers of cells, particles, rows and columns, property values, associative and commutative operations with a neutral element (plus, minimum and maximum are shown to be such), device schedules and work group sizes", "why_tests_cant": "Tests sum a few particles; the strided loops of the work items, the order of the combination inside the work group and the partial last stride must be right for every count and work group size.", "anchors": ["include/neso_particles/algorithms/reduce_dat_cellwise.hpp: reduce_dat_component_cellwise, reduce_dat_components_cellwise", "include/neso_particles/device_functions.hpp: joint_reduce, get_identity"]}
{"id": "C57", "title": "A particle loop with a reduction combines every value its kernel submits exactly once", "statement": "After a ParticleLoop over the particles of a group or sub-group in all cells, one cell or a range of cells, whose kernel calls combine on a CellDatConst accessed with a reduction mode any number of times per particle, each entry of the matrices of these cells is its previous value combined with all submitted values, and the matrices of other cells are unchanged. A work group size that is not a power of two is refused; the size chosen for a kernel that needs local memory fits into the memory and is a power of two if the default is one.", "quantifier": "all groups and sub-groups, kernels, matrix shapes, cell ranges, associative and commutative operations with a neutral element, work group sizes that are powers of two, block sizes, numbers of bins, schedules of the work items and of the atomic updates, contents of local memory", "why_tests_cant": "The result goes through per work item partial results in local memory, a tree over the work group and atomic updates; a wrong tree or layout shows only for particular counts and work group sizes.", "anchors": ["include/neso_particles/loop/particle_loop_reduction.hpp: submit", "include/neso_particles/particle_sub_group/particle_loop_sub_group_reduction.hpp", "include/neso_particles/containers/cell_dat_const.hpp: combine, reduction_initialise, reduction_finalise, pre_loop", "src/compute_target.cpp: get_num_local_work_items"]}
{"id": "C58", "title": "Per particle random numbers are fresh for every particle and component", "statement": "In a ParticleLoop that takes a host per particle block RNG, the generation function is called exactly once for each component of each particle of the named cells, and kernel.at gives each (particle, component) its own value, the same one for repeated reads. Over any sequence of loops no value is handed to two samples. Use of an RNG that another use in the same loop holds is refused. Only the number of particles, not its product with the number of components, is checked against the range of int.", "quantifier": "all occupancies, cell ranges, numbers of components, block sizes, histories of loops, schedules of the asynchronous copies, contents of uninitialised memory", "why_tests_cant": "A reused or stale random number does not change any value a test could compare with; the double buffered copies and the buffer that is reused between loops of different sizes show errors only for particular sizes and timings.", "anchors": ["include/neso_particles/containers/rng/host_per_particle_block_rng.hpp: HostPerParticleBlockRNG, Access::PerParticleBlockRNG::Read", "include/neso_particles/containers/rng/host_rng_common.hpp: draw_random_samples, allocate", "src/loop/particle_loop_utility.cpp: get_loop_npart"]}
{"id": "C59", "title": "Atomic random numbers are handed out at most once and exhaustion is reported", "statement": "With a host atomic block kernel RNG, over any sequence of loops and calls of set_num_random_numbers and any interleaving of the kernels' calls, each call of at gives either a value of the generation function that no other call was given, or reports an invalid sample and gives zero; values which one loop left over may be used by later loops. valid_internal_state is true exactly if all samples so far were valid. A loop that asks for at most the announced number of samples gets only valid ones. With zero components the flag depends on uninitialised memory.", "quantifier": "all histories, numbers of particles, components and calls (below 2^32 per loop), interleavings of the two atomic steps of the calls, schedules of copies, contents of uninitialised memory", "why_tests_cant": "Tests see one interleaving and cannot tell a fresh from a reused number; the bookkeeping of left over numbers depends on the previous loop's number of calls.", "anchors": ["include/neso_particles/containers/rng/host_atomic_block_kernel_rng.hpp: HostAtomicBlockKernelRNG, Access::AtomicBlockRNG::Read", "include/neso_particles/containers/rng/host_rng_common.hpp: draw_random_samples, allocate"]}
{"id": "C60", "title": "Particles that leave a Cartesian mesh are reported with the point, side and face cell where they leave", "statement": "After CartesianTrajectoryIntersection::post_integration, for particles that started in the domain: a particle is in one of the returned sub-groups exactly if its new position is not strictly inside the domain and the side it leaves through is named by a group; it is in the sub-group of the greatest such group and in no other. Its intersection point is a point of the straight way from the previous to the new position, lies on the reported side and in the domain enlarged by the tolerance, and is the first boundary point of the way when the tolerance is zero; the normal is the inward unit normal of that side; the second metadata entry is the number of the face cell that contains the point. The call does not fail, unless a particle moved within the plane of a side.", "quantifier": "all meshes in 2D and 3D, tolerances below the cell width, boundary group maps, particles, positions and previous positions, orders of the work items, contents of the reused temporary buffers", "why_tests_cant": "Tests move particles through a few sides at generic points; corners, edges, several particles with different loop and local indices and stale buffers are not covered.", "anchors": ["include/neso_particles/cartesian_mesh/cartesian_trajectory_intersection.hpp: CartesianTrajectoryIntersection::pre_integration, post_integration", "src/cartesian_mesh/cartesian_trajectory_intersection.cpp: setup", "include/neso_particles/device_functions.hpp: line_segment_intersection_2d_x_axis_aligned, plane_intersection_3d_xy_plane_aligned"]}
{"id": "C61", "title": "Truncation puts particles back inside and reflection mirrors velocities", "statement": "BoundaryTruncation and BoundaryReflection with a positive reset distance place each particle on the line between the intersection point (excluded) and the previous position, at the reset distance from the intersection point or at the previous position when that is closer; a particle that was strictly inside a box and hit its boundary is strictly inside again. The time of the start of the last move is unchanged and the last time step is multiplied by the part of the way up to the intersection point. Reflection keeps the speed and the tangential velocity, reverses the normal component, does not depend on the orientation of the normal and is undone by a second reflection.", "quantifier": "all dimensions, positions, intersection points, positive reset distances, velocities, unit normals and time step proportions (over the real numbers)", "why_tests_cant": "Tests check some trajectories with a numerical tolerance; the branches for tiny moves and for reset distances beyond the previous position depend on the inputs.", "anchors": ["include/neso_particles/boundary/boundary_truncation.hpp: truncate_trajectory, BoundaryTruncation", "include/neso_particles/boundary/boundary_reflection.hpp: reflect_trajectory, BoundaryReflection"]}
{"id": "C62", "title": "Values of boundary facets reach the rank that owns the facet, and come back", "statement": "BoundaryMeshInterface: any history of collective calls of extend_exchange_pattern that names facets with their owners succeeds, whatever the order in which MPI reports the neighbours. Afterwards each rank numbers exactly the facets it has passed, the two directions of the numbering are inverse, later calls keep the numbers, and the version has grown by one for each call that brought a facet new to some rank. exchange_from_device then adds to each component of each facet, in the array of its owner, the sum of the values of all the ranks that know the facet and changes nothing else. reverse_exchange_from_device gives each rank, for each facet it knows, the values of the owner, and changes nothing else, provided that MPI is device aware or kernels can read host memory.", "quantifier": "all numbers of ranks, distributions of facets, histories of extensions, neighbour orders reported by MPI, numbers of components, values, orders of the work items, contents of the pooled buffers, with and without device aware MPI", "why_tests_cant": "Tests extend the pattern a few times on a fixed small number of ranks; the order of the neighbours, several extensions with interleaved new and old facets, stale pooled buffers and schedules cannot be enumerated.", "anchors": ["include/neso_particles/boundary/boundary_mesh_interface.hpp: BoundaryMeshInterface::exchange_surface, exchange_from_device, reverse_exchange_from_device", "src/boundary/boundary_mesh_interface.cpp: extend_exchange_pattern", "src/communication/communication_utility.cpp: reverse_graph_edge_directions, NP_MPI_Neighbor_alltoall, NP_MPI_Neighbor_alltoallw"]}
{"id": "C63", "title": "A function on the boundary is one value per facet, whatever the ranks see and however it is stored", "statement": "For every collective history of calls on a boundary function of a Cartesian mesh (ranks seeing new facets, fill, set_dofs, projections of particles with any number of contributions, evaluations at particles): no call fails; each evaluation gives each particle the current value of its facet, on every rank, also when the stored copies were made before the function or the set of seen facets changed; and a finalised projection leaves on the owner of each facet the sum of the scaled contributions of all particles of all ranks on that facet. New facets seen during a projection are allowed only if each rank had seen at least as many facets as it owns when the projection was initialised and a contribution follows; without these conditions uninitialised memory is added to the result, or a buffer is read beyond its end (both shown).", "quantifier": "all numbers of ranks, ownerships, histories of calls, particle sets and values, schedules of kernels, neighbour orders reported by MPI, contents of new allocations and of pooled buffers; all commutative monoids of values", "why_tests_cant": "Stale copies and unset memory show only for particular orders of calls with particular sets of facets on particular ranks; the unset memory is usually zero in tests.", "anchors": ["src/cartesian_mesh/cartesian_trajectory_intersection.cpp: CartesianTrajectoryIntersection::create_function, function_project_initialise, function_project_contribute, function_project_finalise, function_evaluate", "src/cartesian_mesh/cartesian_h_mesh_function.cpp: CartesianHMeshFunction", "include/neso_particles/device_buffers.hpp: BufferBase::realloc, realloc_no_copy", "include/neso_particles/boundary/boundary_mesh_interface.hpp: exchange_from_device, reverse_exchange_from_device"]}
{"id": "C64", "title": "Parallel initialisation brings every particle to its rank with its values unchanged", "statement": "For every set of particles created on any ranks with positions in the domain of a Cartesian mesh and every number of steps from one on: parallel_advection_initialisation succeeds on all ranks, every particle ends on the rank that owns the cell that contains its position, no particle is lost or duplicated, each has exactly the position and the other values it was created with, except for the two components of its MPI rank, and the group has exactly the properties it had before the call. With zero steps the call throws although the positions are valid (shown), and a position property with more than three components makes it read out of bounds (shown).", "quantifier": "all Cartesian meshes, numbers of ranks, distributions of particles, positions in the domain, numbers of steps, schedules of every loop on every rank, arrival orders of the messages of every move, contents of new memory", "why_tests_cant": "The journey is a composition of many loops and collective moves; a loss or a wrong restored value would show only for particular positions, step numbers and message orders.", "anchors": ["src/parallel_initialisation.cpp: parallel_advection_initialisation, parallel_advection_store, parallel_advection_step, parallel_advection_restore", "src/particle_group.cpp: ParticleGroup::hybrid_move, add_particle_dat, remove_particle_dat", "src/cartesian_mesh/cartesian_h_mesh.cpp: CartesianHMesh::get_point_in_subdomain"]}
{"id": "C65", "title": "LocalArray and GlobalArray hold what loops added", "statement": "For every history of fill and set calls and of particle loops over any number of ranks, a GlobalArray that a loop adds to holds afterwards, on every rank, its old value plus the sum of what the kernels of all particles on all ranks added; a LocalArray holds its old value plus what the kernels of its own rank added; arrays that were not passed for adding, and components that no kernel added to, are unchanged; sizes never change. Reads in a loop return the values from before the loop, also of a GlobalArray the loop adds to. fetch_add returns the value as it was in one order of all adds of the loop; if all adds of a component are by one, the results number the adds without gaps or repetitions. Ranks that agree on a GlobalArray before a loop agree afterwards. Excluded: one GlobalArray passed for adding twice to a loop (aborts), and a loop submitted for several cells before one wait (earlier contributions are lost).", "quantifier": "all commutative monoids of values, numbers of ranks, arrays, sizes, loop arguments, kernel operations, schedules of the kernels, contents of pooled and new memory, orders of the MPI summation, and histories", "why_tests_cant": "tests use one array, a few particles and one schedule; the stage buffer, the pool and the order of atomic operations can be seen only over histories and all schedules", "anchors": ["include/neso_particles/containers/global_array.hpp: GlobalArray", "include/neso_particles/containers/local_array.hpp: LocalArray", "include/neso_particles/loop/particle_loop.hpp: ParticleLoop::submit, wait, execute", "include/neso_particles/device_buffers.hpp: realloc_no_copy"]}
{"id": "C66", "title": "Removal by condition, by sub-group and by list removes exactly the particles asked for", "statement": "ParticleRemover::remove removes from the group exactly the particles whose (first component of the) given property equals the key, whatever earlier calls left in its buffers; remove_particles with a particle sub-group removes exactly its members (everything for the whole group); remove_particles with cells and layers on the host removes exactly the first npart entries, does nothing for npart <= 0 and reports vectors that are too short. The other particles stay in their cells with all properties, each once.", "quantifier": "all groups, properties, keys, sub-groups, requests, buffers left by earlier calls, device schedules and contents of new memory", "why_tests_cant": "tests remove a few particles once with a fresh remover; reused buffers, all schedules of the counting kernels and arbitrary sub-groups cannot be enumerated", "anchors": ["include/neso_particles/particle_remover.hpp: ParticleRemover::remove", "src/particle_group.cpp: ParticleGroup::remove_particles, clear", "src/particle_sub_group/particle_sub_group_base.cpp: get_cells_layers"]}
{"id": "C67", "title": "The union of sets over all ranks ends under every schedule and is the union", "statement": "set_reduce_union returns on the root the union of the sets passed by all ranks and the empty set elsewhere; set_all_reduce_union returns the union on every rank. This holds for every number of ranks (also not a power of two) and every root; the call never deadlocks and ends after a bounded number of steps under every order of the steps of the ranks, whichever sends MPI buffers (in particular if it buffers none), and leaves no message behind for a later call. Elements must be representable as int: wider elements are converted to int on reception.", "quantifier": "all numbers of ranks, roots, sets of each rank, interleavings of the ranks and decisions of the MPI library to buffer a send", "why_tests_cant": "tests run on a few ranks with an MPI library that buffers small messages; deadlocks that depend on buffering and on the interleaving, and all other numbers of ranks, are not exercised", "anchors": ["include/neso_particles/communication/communication_utility.hpp: set_send, set_recv, set_bcast, set_reduce_union, set_all_reduce_union", "include/neso_particles/typedefs.hpp: is_power_of_two, get_prev_power_of_two"]}
{"id": "C68", "title": "Every rank learns exactly who will send to it, under every schedule", "statement": "CommunicationEdgesCounter::get_remote_ranks, called collectively any number of times in succession with arbitrary lists of (rank, integer) pairs (also naming the calling rank, or a rank more than once, or nobody), returns on rank r exactly the pairs (s, x) for which rank s passed (r, x) in the same call, those of one sender in the order in which it passed them. No message or count of one call is attributed to another call, although ranks run ahead of each other, the receives accept any source and the counters are updated by one-sided operations; the calls never deadlock, also when MPI buffers no send, and leave no message behind.", "quantifier": "all numbers of ranks, numbers of calls, arguments on every rank, initial contents of the windows, interleavings of the ranks, orders of arrival of messages of different senders and decisions to buffer", "why_tests_cant": "tests run a handful of ranks under one schedule; a missing barrier between the reset of the counter and its increments, or between two exchanges, shows only under particular interleavings", "anchors": ["src/communication/communication_edges_counter.cpp: reset, init_count, exchange_init, exchange_finalise, exchange_send_recv_counts, get_remote_ranks", "include/neso_particles/communication/communication_edges_counter.hpp: CommunicationEdgesCounter"]}
{"id": "C69", "title": "Objects collected on mesh hierarchy cells arrive complete, once and in rank order, wherever they are asked for", "statement": "After constructing a MeshHierarchyContainer collectively from a map cell -> objects on each rank, and after any history of collective calls of gather with arbitrary cells on each rank, get(cell) on a rank that asked for the cell (or owns it) returns exactly the objects all ranks passed for that cell, each once, ordered by rank and within a rank as passed, whatever the order in which requests are discovered; a cell without owner yields no objects; a cell that was not asked for is refused. Repeated and overlapping requests, cells nobody holds and empty entries change nothing. Objects are read back from their bytes exactly, provided their own serialise/deserialise agree. Cell indices must be representable as int and a rank pair must exchange less than 2 GiB.", "quantifier": "all numbers of ranks, ownership maps, serialisable types, objects, histories of gather and orders of discovery", "why_tests_cant": "tests use a few ranks, one type and one or two requests; the effect of a request depends on everything gathered before on all ranks", "anchors": ["include/neso_particles/mesh_hierarchy_data/mesh_hierarchy_container.hpp: MeshHierarchyContainer, gather, get, generic_unpack, MHCellBuffer", "include/neso_particles/mesh_hierarchy_data/serial_container.hpp: SerialContainer", "src/communication/communication_edges_counter.cpp: exchange_send_recv_counts, exchange_send_recv_data"]}
{"id": "C70", "title": "Mesh cells sent to other ranks arrive as they were, and the halo mesh is the part of the mesh they make up", "statement": "A DMPlex cell packed with get_copyable_cell carries its local number, its global number, its owner, its type and exactly the points of its closure with their cones, orientations and vertex coordinates, under global numbers; serialising and deserialising a representation returns it unchanged; and dm_from_serialised_cells, given any list of such cells from any ranks (repeated cells included), builds a mesh whose points are exactly the points of these cells, numbered from 0 with vertices first and in the order of the global numbers within each dimension, with the cones, orientations and coordinates of the original mesh, and a map that gives for each received cell its owner and local number there and for every other point (-1, -1, global number).", "quantifier": "all meshes (graded, any dimension), distributions over ranks with their own numberings, lists of received cells, widths of PetscInt", "why_tests_cant": "tests build a few meshes; local numberings, shared points and repetitions on each rank depend on the partition", "anchors": ["src/external_interfaces/petsc/dmplex_cell_serialise.cpp: CellSTDRepresentation, DMPlexCellSerialise", "src/external_interfaces/petsc/dmplex_helper.cpp: dm_from_serialised_cells, DMPlexHelper::get_copyable_cell", "include/neso_particles/external_interfaces/petsc/dmplex_helper.hpp: HaloDMIndexMapper"]}
{"id": "C71", "title": "Cell and point numbers of a DMPlex translate back and forth", "statement": "A DMPlexHelper exists exactly if the rank owns a cell; get_dmplex_cell_index and get_local_cell_index are inverse to each other between 0..n-1 and exactly the owned cells of the range; get_point_global_index gives every point of the chart its unsigned global number and get_local_point_from_global_point returns the point for that number and only such points.", "quantifier": "all charts, cell ranges and signed global numberings without repeated numbers", "why_tests_cant": "tests look up the points of one partition; ownership patterns vary with the partition", "anchors": ["src/external_interfaces/petsc/dmplex_helper.cpp: DMPlexHelper::DMPlexHelper, get_dmplex_cell_index, get_local_cell_index, get_point_global_index, get_local_point_from_global_point"]}
{"id": "C72", "title": "The elements of an unstructured mesh are attached to the cells of the mesh hierarchy they overlap, and those cells are claimed", "statement": "bounding_box_map, given the bounding box of a mesh element, lists exactly the cells of the mesh hierarchy whose interior meets that of the box, each once, with the volume of the common part; these volumes add up to the volume of a box inside the domain. Claiming the elements of a rank makes one claim for each such cell of which some element covers a millionth or more; its weight is the greatest number of whole millionths that one element covers, between 1 and 10^6. The map kept from mesh hierarchy cells to elements lists for each cell exactly the elements that overlap it, in ascending order; so the cell that contains a position lists every element whose box contains the position (upper faces excluded).", "quantifier": "all mesh hierarchies of up to three dimensions (any extents, subdivision, origin), all lists of boxes, also partly or wholly outside the domain, all positions", "why_tests_cant": "boundaries of boxes and cells coincide or not in infinitely many ways; a test checks a few boxes", "anchors": ["src/external_interfaces/common/local_claim.cpp: overlap_1d, bounding_box_map, LocalClaim::claim, bounding_box_claim", "include/neso_particles/external_interfaces/common/bounding_box.hpp: BoundingBox", "src/external_interfaces/petsc/dmplex_interface.cpp: DMPlexInterface::claim_mesh_hierarchy_cells"]}
{"id": "C73", "title": "The cells of particles in two-dimensional unstructured meshes are found", "statement": "For every mesh of triangles and convex quadrilaterals (vertices in either sense), cells of this rank and of the halo together, the mapper for linear two-dimensional DMPlex meshes can be built, and for every position: the particle keeps its cell and rank, or gets the id and owning rank of a cell that contains the position (boundary included); it keeps them if no cell contains the position; and it gets those of a containing cell whenever some cell has the position in its interior, or contains it and has a vertex above it. Of several accepting cells the last one listed is taken. The Cartesian mesh used for the search never loses a cell: the result is the same as if every cell were tested. This mesh has the bounding box as its domain, at least as many cells as asked for and fewer than twice as many, with cells of split dimensions at least half as wide as those of any other; every position of the domain is in the cell computed for it; and the cells listed for a box are all those that meet it, each once, and none further than epsilon from it (one and two dimensions).", "quantifier": "all lists of convex cells, all positions, all boxes and cell counts, all overlay meshes", "why_tests_cant": "The crossing test treats horizontal sides, vertices and shared sides differently by case; that no position in any cell of any mesh is lost cannot be settled by sampling.", "anchors": ["src/external_interfaces/petsc/particle_cell_mapping/dmplex_2d_mapper.cpp: DMPlex2DMapper::DMPlex2DMapper, DMPlex2DMapper::map", "src/external_interfaces/common/overlay_cartesian_mesh.cpp: OverlayCartesianMesh, create_overlay_mesh", "include/neso_particles/external_interfaces/common/overlay_cartesian_mesh.hpp: OverlayCartesianMeshMapper", "src/external_interfaces/petsc/dmplex_helper.cpp: DMPlexHelper::get_cell_bounding_box, DMPlexHelper::get_bounding_box", "include/neso_particles/bounding_box.hpp: BoundingBox::expand"]}
{"id": "C74", "title": "The owner of a mesh hierarchy cell knows every mesh element a particle there can be in", "statement": "For every unstructured mesh distributed over any number of ranks, the set up succeeds on all ranks; a mesh hierarchy cell is owned by a rank that claimed it, and every claimed cell is owned; each rank receives exactly the elements of other ranks that meet a mesh hierarchy cell which somebody owns and which the rank claims or which is next to one it claims and owns; the halo mesh made of them is that part of the global mesh and gives for each element the rank and local number of its owner; the neighbour ranks are exactly the owners of these elements, in increasing order. So for every position, the owner of the mesh hierarchy cell of the position has every element whose box contains the position, as its own or in its halo.", "quantifier": "all meshes, distributions over ranks and nodes, mesh hierarchies of up to three dimensions, orders of the window updates and orders in which senders are discovered", "why_tests_cant": "The result depends on claims of all ranks, on the election of owners and on two exchanges; a missing halo element shows up as a lost particle only for particular positions on particular partitions.", "anchors": ["src/external_interfaces/petsc/dmplex_interface.cpp: DMPlexInterface::get_unowned_cells, DMPlexInterface::claim_mesh_hierarchy_cells, DMPlexInterface::create_halos", "include/neso_particles/mesh_hierarchy_data/mesh_hierarchy_container.hpp: MeshHierarchyContainer", "src/external_interfaces/petsc/dmplex_cell_serialise.cpp: CellSTDRepresentation", "src/external_interfaces/petsc/dmplex_helper.cpp: DMPlexHelper::get_copyable_cell"]}
{"id": "C75", "title": "Values at sample points come back to the rank that added the point", "statement": "For any numbers of points added on any number of ranks, however the points are moved to the ranks that hold them, adding the points succeeds, and then any sequence of calls behaves as a table of values per adding rank, point and number of components: a particle loop over the points writes what its function gives for the position, get returns on each rank the values of its own points in the order in which they were added, wherever they are held, and set changes the values of the points that the rank itself holds. set followed by get returns what was set if no point is held by another rank. Points held by other ranks do not receive their value in set, and get with two or more components fails when such a point exists.", "quantifier": "all numbers of ranks and points, distributions of the points by the moves, orders of work items, orders in which senders are discovered, contents of uninitialised memory, sequences of calls and numbers of components", "why_tests_cant": "The result depends on a numbering made by atomic increments on one rank being used by an exchange to reach the right place on another rank; tests use a few distributions, and one rank hides both the missing values in set and the buffer sized for one component in get.", "anchors": ["include/neso_particles/external_interfaces/common/quadrature_point_mapper.hpp: QuadraturePointMapper, interpolate", "src/external_interfaces/common/quadrature_point_mapper.cpp: QuadraturePointMapper::add_point, QuadraturePointMapper::add_points_finalise, QuadraturePointMapper::get, QuadraturePointMapper::set", "src/communication/communication_edges_counter.cpp: CommunicationEdgesCounter::exchange_send_recv_data"]}
{"id": "C76", "title": "Degrees of freedom copied to an external library are in that library's order", "statement": "For any history of a DOF mapper with any number of cells and degrees of freedom, get returns the external index last set for a cell and degree of freedom, -1 if none was set, and refuses indices out of range. If the indices are a numbering of the degrees of freedom then copy_to_external leaves at every external index the value of the degree of freedom with that index, changes nothing behind the last degree of freedom and leaves the mapper's indices as they were. copy_from_external does not do the opposite: it overwrites the caller's array and stores values that were in the device buffer before.", "quantifier": "all histories of calls, numbers of cells and degrees of freedom per cell, numberings, contents of the arrays and of uninitialised memory, orders of work items", "why_tests_cant": "The copy is a permutation chosen at run time, scattered by concurrent work items; the contents of a reused device buffer depend on the whole history of calls.", "anchors": ["include/neso_particles/external_interfaces/common/dof_mapper_dg.hpp: DOFMapperDG", "src/external_interfaces/common/dof_mapper_dg.cpp: DOFMapperDG::set, DOFMapperDG::get, DOFMapperDG::copy_to_external, DOFMapperDG::copy_from_external"]}
{"id": "C77", "title": "Operations that work cell by cell reach exactly the right elements", "statement": "Writing the number of particles per cell into a per-cell matrix changes exactly the given row and column of every cell, and out of range rows, columns and cell counts are refused. An element wise expression of per-cell matrices gives for every element of the result the kernel applied to the values the arguments had before, with single values per cell broadcast, also when the result is one of the arguments, changes no other matrix and refuses arguments that do not fit. The broadcast of a value per cell sets exactly the given component of exactly the selected particles. Copies between temporary data of a sub group and particle data move all components of exactly the selected particles between the right rows.", "quantifier": "all numbers of cells, rows, columns, arguments and aliasing of the result with arguments, kernels, selections, contents and orders of work items", "why_tests_cant": "Aliasing, broadcasting and concurrent work items combine; a test sees one shape and one order of the work items.", "anchors": ["include/neso_particles/algorithms/cellwise_methods.hpp: get_npart_cell, cell_dat_const_loop_element_wise", "include/neso_particles/algorithms/particle_data_movement.hpp: cellwise_broadcast, copy_ephemeral_dat_to_particle_dat, copy_particle_dat_to_ephemeral_dat", "include/neso_particles/loop/pli_particle_dat.hpp: at, at_ephemeral"]}
{"id": "C78", "title": "Calls that extract unseen values return every value exactly once", "statement": "Successive calls of an unseen value extractor on particle groups or sub groups return, for every call, exactly the values of the chosen component that some particle of that call has and no particle of an earlier call had, as an ordered set without repetition, however often a value occurs and in whatever order the particles are visited. No call writes outside its buffer.", "quantifier": "all sequences of calls, numbers of particles, values, contents of reused buffers and newly allocated memory, and orders of work items in every call", "why_tests_cant": "The claim is over all histories of calls and all interleavings of the particles that append to the buffer; a test sees a few calls.", "anchors": ["include/neso_particles/algorithms/unseen_value_extractor.hpp: extract", "src/algorithms/unseen_value_extractor.cpp: UnseenValueExtractor", "include/neso_particles/containers/blocked_binary_tree.hpp: BlockedBinaryTree"]}
{"id": "C79", "title": "Loops over a vector of Syms use the data that exists when the loop is executed", "statement": "However a program interleaves loops over vectors of Syms with creating and removing particle data and temporary data of a sub group and with the automatic reset of temporary data, every such loop reads and writes the data its Syms name at that time, temporary data first, or fails if a Sym names nothing, provided a Sym is not given another meaning after it was used in such a loop: particle data is not removed, or hidden by new temporary data, after its Sym was used, and temporary data is not removed one by one after its Sym was used since the last reset. Without that condition the claim is false: the loop goes on using the pointers of the removed or hidden data.", "quantifier": "all histories of operations, vectors of Syms, read only and writing loops, groups and sub groups", "why_tests_cant": "Stale pointers appear only for particular orders of creating, using and removing data; a test with the usual order passes.", "anchors": ["include/neso_particles/containers/sym_vector_pointer_cache.hpp: SymVectorPointerCache", "include/neso_particles/containers/sym_vector_impl.hpp: create_loop_arg, pre_loop", "src/containers/ephemeral_dats.cpp: reset_ephemeral_dats", "src/particle_group.cpp: remove_particle_dat, add_particle_dat"]}
{"id": "C80", "title": "The nearest boundary crossing of every trajectory is found in 2D", "statement": "On a 2D mesh with labelled boundary facets, in any sequence of calls of the boundary interaction with any particles, every particle whose straight trajectory crosses a boundary facet is in exactly one of the returned groups, with the point, the normal, the group and the index of a facet it crosses (up to the tolerance) that is not farther from the start than any crossing; a particle that is in no group crosses no facet. This holds for trajectories that start below the upper boundary of the mesh hierarchy and for positions with two components. It is false for a start exactly on the upper boundary, where no cell is searched, and for positions with three components, where no crossing is ever found.", "quantifier": "all meshes, boundary groups, distributions of facets over ranks, sequences of calls, numbers of particles, start and end positions, orders of the work items, contents of buffers", "why_tests_cant": "A crossing is missed only for particular trajectories and facets relative to the cells of the hierarchy, and depending on which cells earlier calls collected.", "anchors": ["include/neso_particles/external_interfaces/petsc/boundary_interaction/boundary_interaction_2d.hpp: BoundaryInteraction2D, post_integration", "src/external_interfaces/petsc/boundary_interaction/boundary_interaction_2d.cpp: collect_cells", "include/neso_particles/external_interfaces/petsc/boundary_interaction/boundary_interaction_common.hpp: find_cells, find_intersections"]}
{"id": "C81", "title": "Projection onto piecewise constant functions and their evaluation", "statement": "For every mesh with cells of positive volume and every history of projections, evaluations, get_dofs, set_dofs and, when there are quadrature points, writes of the point values: a projection makes each component in each cell the sum of the values of the particles in the cell divided by its volume, whatever the order of the particles; the sum over the cells of volume times coefficient is the sum of the particle values; the components above those projected or set are zero; an evaluation gives every particle the value of its cell, taken from the point with index 0 of the cell when there are points; get_dofs returns the coefficients cell by cell. Without points, it is false that an evaluation uses the existing coefficients when it has more components than before: all coefficients are lost.", "quantifier": "all meshes, volumes, point sets, histories of calls, numbers of components, particles, orders of the particles, contents of new memory", "why_tests_cant": "A wrong result depends on the numbers of components of earlier calls, on the order of atomic additions and on uninitialised memory.", "anchors": ["include/neso_particles/external_interfaces/petsc/project_evaluate/dmplex_project_evaluate_dg.hpp: DMPlexProjectEvaluateDG, project_inner, evaluate_inner", "src/external_interfaces/petsc/project_evaluate/dmplex_project_evaluate_dg.cpp: check_ncomp, get_dofs, set_dofs"]}
{"id": "C82", "title": "Transfers between two distributed meshes", "statement": "For every coupling map from the local cells of a mesh A to global cells of a distributed mesh B with forward and backward weights, on any number of ranks: the coupler can be constructed, a forward transfer gives every cell of B on its owner the sum over all cells of A on all ranks of forward weight times coefficient, and a backward transfer gives every cell of A the sum over its entries of backward weight times the coefficient of the cell of B, for every number of components, whatever the order of the neighbours reported by MPI and the contents of the buffers left by earlier transfers. The numbering of the owned cells of B must start at zero in the local numbering of points: with a cell of another rank before them a transfer writes out of bounds.", "quantifier": "all numbers of ranks, meshes, owners, coupling maps, weights, neighbour orders, histories of transfers, numbers of components, coefficients", "why_tests_cant": "The packing depends on the order of the neighbours that MPI reports for two graphs, on ranks that own no cells or couple to themselves, and on buffers left by transfers with other numbers of components.", "anchors": ["src/external_interfaces/petsc/dmplex_mesh_coupler_dg0.cpp: DMPlexMeshCouplerDG0, forward_transfer, backward_transfer, prepare_transfer", "src/external_interfaces/petsc/dmplex_helper.cpp: get_map_from_global_cell_points_to_ranks, get_local_point_from_global_point"]}
{"id": "C83", "title": "Owners of the cells of a distributed mesh", "statement": "For every distribution of the cells of a mesh over ranks whose cells have consecutive global numbers: the collective map from global cells to ranks is the same on all ranks, starts at the smallest number and holds the owner of every cell; if a map is returned the numbers were consecutive. A mesh with this map, and the owned cells first among the points of each rank, meets the assumptions of the transfers of C82.", "quantifier": "all numbers of ranks, distributions of cells and points, global numbers that fit into int", "why_tests_cant": "The map is the result of three reductions over all ranks and depends on every rank's cells; tests run on one or few ranks with one partition.", "anchors": ["src/external_interfaces/petsc/dmplex_helper.cpp: get_map_from_global_cell_points_to_ranks, DMPlexHelper", "src/external_interfaces/petsc/dmplex_mesh_coupler_dg0.cpp: DMPlexMeshCouplerDG0"]}
{"id": "C84", "title": "Mapping particles to cells of a mesh that is not two-dimensional", "statement": "For every particle group, selection of one cell or all cells, and result of the point location of PETSc: after the mapping every selected particle has the local cell that holds its position and this rank, or else the remote cell and rank of the halo cell that holds it, or else -1 and -1; all other particles and all positions are unchanged, whatever the order of the particles in the loops and the contents of the reused buffers. The cell is the number of the point in the DMPlex, which is the local cell only if the owned cells are the first points.", "quantifier": "all particle groups, distributions over cells, selected cells, dimensions, point locations, halo meshes, schedules, buffer contents", "why_tests_cant": "Packed positions, not found particles and halo results use three different numberings; errors appear only for groups in which particles of all three kinds are mixed and the loop starts at a later cell.", "anchors": ["src/external_interfaces/petsc/particle_cell_mapping/dmplex_host_mapper.cpp: DMPlexHostMapper::map", "include/neso_particles/loop/particle_loop_index.hpp: get_loop_linear_index", "include/neso_particles/external_interfaces/petsc/dmplex_local_mapper.hpp: DMPlexLocalMapper"]}
{"id": "C85", "title": "Temporary particle groups follow the properties of their source group", "statement": "After any history of requests and returns of temporary groups, and of added and removed properties and changed particles in the source group and in the temporary groups, a request for a temporary group succeeds, leaves the source group and the groups in use as they are, and gives a group that has exactly the current properties of the source group with the same numbers of components, the same positions and cell id properties, and no particles. This fails when the source group replaces its positions property while a returned temporary group is kept.", "quantifier": "all groups with one positions and one cell id property, all histories of requests, returns and changes", "why_tests_cant": "A returned group is reused after arbitrary changes of the source group and of itself; which properties differ, and whether one that differs is protected from removal, depends on the whole history.", "anchors": ["src/particle_group_temporary.cpp: ParticleGroupTemporary::get, restore", "include/neso_particles/containers/resource_stack.hpp: ResourceStack", "src/particle_group.cpp: ParticleGroup::add_particle_dat, remove_particle_dat, clear"]}
