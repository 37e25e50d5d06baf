{"id": "C01", "title": "Morton encode/decode round trip", "statement": "Decoding the Morton key of a cell returns exactly the coordinates it was encoded from, in 2D (32-bit coordinates) and 3D (21-bit coordinates); bits above the supported width are dropped, never mixed into other coordinates.", "quantifier": "all coordinate tuples in the supported range (2^63 tuples in 3D), both dimensions, all axes", "why_tests_cant": "The magic-mask bit tricks act on each of the 2^63 tuples; a test samples a handful.", "anchors": ["core/src/morton_utils.h: splitBy3, compute_morton_key, morton_extract_coord"]}
{"id": "C02", "title": "Morton order is the depth-first order of the octree", "statement": "The key of the parent cell is the child key without its last three bits, distinct cells of one level have distinct keys, and the keys of the descendants of a cell form exactly one contiguous interval at every finer level.", "quantifier": "all cells, all levels and all level differences", "why_tests_cant": "Contiguity is a statement about all descendants of all cells; domain decomposition by key intervals silently relies on it.", "anchors": ["core/src/morton_utils.h: compute_morton_key", "core/src/amr/AMRmesh_hashmap_new.cpp: shift_level, compute_morton"]}
{"id": "C03", "title": "Initial mesh covers the coarse grid exactly once across ranks", "statement": "After construction, the octants of all ranks, concatenated in rank order, enumerate every cell of the coarse grid exactly once in Morton order, at the minimum level; rank sizes differ by at most one and the global index of each octant is its position in this enumeration.", "quantifier": "all coarse grid sizes that fit the minimum level, both dimensions, any number of ranks (not more than cells)", "why_tests_cant": "Two different code paths (full cube / arbitrary box) combined with an arbitrary number of ranks and integer division boundaries.", "anchors": ["core/src/amr/AMRmesh_hashmap_new.cpp: private_init (l.77-194)"]}
{"id": "C04", "title": "The leaves always tile the domain", "statement": "After any sequence of marker settings, adaptations, global refinements and load balancings, every point of the domain is covered by exactly one octant over all ranks, and the rank-order concatenation of local octants is in Morton order.", "quantifier": "all histories of mesh operations, all markers, any number of ranks, 2D and 3D, any coarse grid, any periodicity", "why_tests_cant": "An overlap or hole appears only for particular marker patterns across rank boundaries; histories are unbounded.", "anchors": ["core/src/amr/AMRmesh_hashmap_new.cpp: adapt (l.683-967), loadBalance (l.496-674), adaptGlobalRefine"]}
{"id": "C05", "title": "2:1 balance after every adaptation", "statement": "After adapt(), any two leaves that touch (face, edge or corner, periodic images included) differ by at most one level, whichever ranks own them.", "quantifier": "all markers in {-1,0,1}, all balanced starting meshes, any number of ranks", "why_tests_cant": "The constraint propagates over arbitrarily long chains of octants and ranks.", "anchors": ["core/src/amr/AMRmesh_hashmap_new.cpp: adapt, check_21_cell (l.722-784)"]}
{"id": "C06", "title": "Adaptation makes the least change that satisfies the rules", "statement": "Every refinement request is honoured; a leaf ends up finer than requested only when 2:1 balance or an incomplete sibling family forces it: the applied markers are the pointwise smallest assignment above the request that is balanced and only coarsens complete families.", "quantifier": "all balanced meshes and all marker assignments", "why_tests_cant": "Minimality compares with every other admissible assignment.", "anchors": ["core/src/amr/AMRmesh_hashmap_new.cpp: adapt (l.786-817)"]}
{"id": "C07", "title": "Adapted mesh does not depend on the domain decomposition", "statement": "For the same global mesh and the same markers, adapt() yields the same global sequence of octants whatever the number of ranks, the way octants are split among them, the order in which ghosts are stored, and however stale ghost markers are within an iteration.", "quantifier": "all partitions of all meshes, all ghost orders", "why_tests_cant": "Needs comparing all decompositions; tests run one or two.", "anchors": ["core/src/amr/AMRmesh_hashmap_new.cpp: adapt (nested local/global fixpoint loops l.788-817)"]}
{"id": "C08", "title": "Adaptation always terminates", "statement": "The nested marker-correction loops of adapt() reach a state where no rank changes any marker, after a number of iterations bounded by the number of octants; all ranks leave the loop in the same iteration.", "quantifier": "all meshes, all markers in {-1,0,1}, any number of ranks", "why_tests_cant": "Non-termination (deadlock of the whole job) is not observable by finite tests.", "anchors": ["core/src/amr/AMRmesh_hashmap_new.cpp: adapt (l.788-817)"]}
{"id": "C09", "title": "Coarsening only happens to complete sibling families", "statement": "An octant is replaced by its parent only if all its siblings are leaves and are replaced too; the parent then appears exactly once, on the rank owning the first sibling, even when the family is split over several ranks.", "quantifier": "all meshes, markers and partitions", "why_tests_cant": "Families split across ranks occur only for particular decompositions.", "anchors": ["core/src/amr/AMRmesh_hashmap_new.cpp: adapt (l.737-760, 829-906)"]}
{"id": "C10", "title": "Levels stay within [level_min, level_max]", "statement": "If markers come from the refine-condition helper, which clamps them to the level bounds, no adaptation creates a leaf coarser than level_min or finer than level_max, 2:1 corrections included.", "quantifier": "all histories, all raw markers", "why_tests_cant": "Propagated refinement could push a neighbour of a finest leaf over the bound; must be excluded for all patterns.", "anchors": ["core/src/refine_condition/RefineCondition_helper.h: set_markers", "core/src/amr/AMRmesh_hashmap_new.cpp: adapt"]}
{"id": "C11", "title": "Load balancing preserves the mesh and balances it", "statement": "loadBalance() changes only ownership: the global Morton-ordered sequence of octants is the same before and after; with compact_levels = 0 rank sizes differ by at most one; when there are at least as many octants as ranks no rank is left empty, for any compact_levels.", "quantifier": "all meshes, partitions (including empty ranks), any number of ranks, all compact_levels", "why_tests_cant": "Pivot truncation and binary search boundaries combine with arbitrary meshes.", "anchors": ["core/src/amr/AMRmesh_hashmap_new.cpp: loadBalance (l.496-674), lower_bound_morton (l.247-266)"]}
{"id": "C12", "title": "User data travels with its octant", "statement": "The data sent by the load-balancing communicator ends up at the position of the octant it belonged to: for every octant the payload at its new owner and index equals the payload at its old owner and index.", "quantifier": "all meshes, partitions, payloads", "why_tests_cant": "A single mis-ordered block corrupts the simulation silently; depends on all-to-all layout.", "anchors": ["core/src/amr/AMRmesh_hashmap_new.cpp: loadBalance, loadBalance_userdata", "core/src/mpi/ViewCommunicator.h: exchange_ghosts"]}
{"id": "C13", "title": "Ghost layer is complete and exact", "statement": "After construction, adapt() and loadBalance(), the ghosts of a rank are exactly the leaves owned by other ranks that touch one of its own leaves (corners and periodic images included), each exactly once.", "quantifier": "all balanced meshes, any number of ranks, any storage capacity restarts", "why_tests_cant": "Missing ghosts occur only for special decompositions where a same-size neighbour region is split among several ranks.", "anchors": ["core/src/amr/AMRmesh_hashmap_new.cpp: discover_ghosts (l.275-492)"]}
{"id": "C14", "title": "Rank lookup by Morton key", "statement": "The binary search that finds the owner of a key returns the unique rank whose half-open interval contains it, also with empty intervals.", "quantifier": "all sorted interval lists and all keys", "why_tests_cant": "Off-by-one at every boundary and with repeated bounds.", "anchors": ["core/src/amr/AMRmesh_hashmap_new.cpp: find_rank (l.319-342)"]}
{"id": "C15", "title": "Neighbour query is complete and correct", "statement": "findNeighbors(octant, offset) returns exactly the leaves that touch the given face/edge/corner of the octant from the offset direction (1 same size or bigger, or the 2^(d-1) / 2 / 1 smaller ones), each once; it returns the octant itself for a zero offset and nothing exactly when the offset leaves a non-periodic domain.", "quantifier": "all 2:1 balanced tilings, all leaves, all 26 offsets, periodic or not, 2D and 3D", "why_tests_cant": "The three-way search (same level, coarser, finer) depends on the whole neighbourhood configuration.", "anchors": ["core/src/amr/LightOctree_hashmap.h: findNeighbors (l.140-218), isBoundary (l.221-235)"]}
{"id": "C16", "title": "Neighbour relation is symmetric", "statement": "If leaf B is found from leaf A in some direction, then A is found from B in some direction.", "quantifier": "all balanced tilings, pairs of leaves", "why_tests_cant": "Asymmetric lookups appear only in special level configurations (corner, periodic wrap).", "anchors": ["core/src/amr/LightOctree_hashmap.h: findNeighbors"]}
{"id": "C17", "title": "Precomputed neighbour table equals the direct query", "statement": "The compressed-row neighbour table returns, for every octant (local or ghost entry that is filled) and every offset, the same list in the same order as the direct query.", "quantifier": "all meshes, octants, offsets", "why_tests_cant": "Flat index arithmetic and prefix sums over arbitrary sizes.", "anchors": ["core/src/amr/LightOctree_hashmap_precompute.h: init, findNeighbors, offset_to_index"]}
{"id": "C18", "title": "Point location", "statement": "Looking up the octant at a position inside the domain returns the unique leaf containing the position, and the domain query returns the rank owning that leaf.", "quantifier": "all tilings, all positions, any number of ranks", "why_tests_cant": "Positions and meshes are unbounded; the fast path walks levels from fine to coarse.", "anchors": ["core/src/amr/LightOctree_hashmap.h: getiOctFromPos (l.267-307), getDomainFromPos (l.310-345), constructor (l.40-68)"]}
{"id": "C19", "title": "Ghost exchange delivers the owner's values", "statement": "After exchange_ghosts every ghost slot holds exactly the value that the owning rank holds for that octant, and the slot order equals the order in which the ghost octants themselves were received.", "quantifier": "all ghost maps, any number of ranks, all data", "why_tests_cant": "Packing offsets and all-to-all displacement sums over arbitrary sizes and ranks.", "anchors": ["core/src/mpi/ViewCommunicator.h: exchange_ghosts (l.205-370)", "core/src/mpi/ViewCommunicator.cpp"]}
{"id": "C20", "title": "Ghost reduction adds every contribution exactly once", "statement": "After reduce_ghosts each owner value equals its previous value plus the sum of the values of all its ghost copies on other ranks; no contribution is lost, duplicated or attributed to another octant, in whatever order atomics execute.", "quantifier": "all ghost maps, all data in a commutative monoid, all execution orders", "why_tests_cant": "Atomic additions execute in arbitrary orders.", "anchors": ["core/src/mpi/ViewCommunicator.h: unpack_reduce, reduce_ghosts (l.373-522)"]}
{"id": "C21", "title": "Redistribution by domain delivers each item exactly once", "statement": "Building a communicator from a destination rank per item (particles) and exchanging sends every item exactly once to its destination, keeping the relative order of items from one source, and all attributes of a particle stay together.", "quantifier": "all item counts, destinations, ranks", "why_tests_cant": "Prefix-sum scatter in parallel for arbitrary destination patterns.", "anchors": ["core/src/mpi/ViewCommunicator.cpp: private_init_domains (l.7-59)", "core/src/particles/ForeachParticle.h: get_distribute_communicator, distribute", "core/src/UserData_particles.h: distributeParticles"]}
{"id": "C22", "title": "Partial ghost blocks list exactly the cells near masked faces", "statement": "For each face mask, the list of cells exchanged contains each cell of the block lying within ghost_count layers of one of the masked faces exactly once and no other cell; sender and receiver agree on the number of cells.", "quantifier": "all block sizes, all ghost counts not larger than the block, all 64 face masks, 2D and 3D", "why_tests_cant": "Inclusion-exclusion of six slabs for arbitrary block sizes.", "anchors": ["core/src/mpi/GhostCommunicator_partial_blocks.cpp: precompute_facemask_cells (l.5-99), init (l.108-265)"]}
{"id": "C23", "title": "Cell iteration visits every cell exactly once", "statement": "foreach_cell (and the patch/group iteration) calls the functor exactly once for every cell of every local octant, and temporary per-group arrays never alias two octants processed in the same group.", "quantifier": "all numbers of octants, block sizes and group sizes", "why_tests_cant": "Flat index decoding and group tail sizes for arbitrary sizes.", "anchors": ["core/src/foreach_cell/AMRBlockForeachCell.h: foreach_cell (l.311-333)", "core/src/foreach_cell/AMRBlockForeachCell_group.h: foreach_patch, Patch::foreach_cell"]}
{"id": "C24", "title": "Cell index conversion between block arrays", "statement": "Converting a cell index from an array to another array with a wider (ghosted) block and back is the identity, and conversion keeps the geometric position relative to the block centre.", "quantifier": "all block sizes with symmetric ghost layers, all cells", "why_tests_cant": "Signed/unsigned division of size differences for arbitrary sizes.", "anchors": ["core/src/foreach_cell/AMRBlockForeachCell_CellArray.h: convert_index, convert_index_ghost (l.414-456)"]}
{"id": "C25", "title": "Cell neighbour query is geometrically correct", "statement": "The neighbour cell found across an octant boundary is the cell of the tiling that geometrically lies at the requested offset: same-size neighbour at that position, the bigger cell containing it, or the smaller cell with smallest Morton index adjacent to the current cell.", "quantifier": "all balanced tilings, leaves, even block sizes, cells and offsets", "why_tests_cant": "Depends on parity of octant positions, level difference and block size.", "anchors": ["core/src/foreach_cell/AMRBlockForeachCell_CellArray.h: CellIndex::getNeighbor_ghost (l.600-763)"]}
{"id": "C26", "title": "Boundary cells decode to the closest inside cell", "statement": "For a cell index outside a non-periodic domain, the returned inside cell is the closest cell of the block and adding the returned offset leads back to the boundary cell.", "quantifier": "all block sizes, all cells and offsets within one block width", "why_tests_cant": "Biased unsigned storage of negative indices for arbitrary sizes.", "anchors": ["core/src/foreach_cell/AMRBlockForeachCell_CellArray.h: getBoundaryPosAndOffset (l.98-120), getNeighbor_ghost"]}
{"id": "C27", "title": "AMR remapping conserves integrals", "statement": "When fields are remapped after an AMR cycle, the total (value times cell volume) of every field over the whole domain is unchanged (exact arithmetic).", "quantifier": "all old/new mesh pairs produced by adapt, all data, all block sizes (even and odd)", "why_tests_cant": "Needs the sum over the whole mesh for all adaptation patterns.", "anchors": ["core/src/amr/MapUserData_mean.cpp: remap, remap_aux", "core/src/amr/CellIndexRemapper.h: get_old_cell"]}
{"id": "C28", "title": "AMR remapping is local and copies where nothing changed", "statement": "A cell of an unchanged octant keeps its value, a cell of a refined octant takes the value of the old cell containing it, a cell of a coarsened octant takes the mean of the old cells it contains.", "quantifier": "all old/new mesh pairs produced by adapt, all cells", "why_tests_cant": "Block cell offsets for every child position and block parity.", "anchors": ["core/src/amr/CellIndexRemapper.h: get_old_cell (l.27-105)", "core/src/amr/MapUserData_mean.cpp"]}
{"id": "C29", "title": "Named fields behave like independent arrays", "statement": "Over any sequence of create/delete/rename/write operations, reading a field by name gives what was last written to that field under any of its names; a new field reads zero; operations on one field never change another.", "quantifier": "all histories of field operations", "why_tests_cant": "Slots are recycled and renamed; interference only appears in particular histories.", "anchors": ["core/src/UserData_fields.h: new_fields, move_field, delete_field, getField, backup_and_realloc"]}
{"id": "C30", "title": "Field data survives load balancing", "statement": "After load balancing, reading a field by name at an octant gives the value that field had at that octant before.", "quantifier": "all histories of field operations followed by load balancing", "why_tests_cant": "Depends on slot layout reached by arbitrary create/rename/delete histories.", "anchors": ["core/src/UserData_fields.h: exchange_loadbalance, backup_and_realloc"]}
{"id": "C31", "title": "Periodic triggers do not drift or double fire", "statement": "An interval trigger fires exactly when the observed value has reached a new multiple of the interval since the last firing, whatever the step sizes; restarting from any value does not change the set of multiples.", "quantifier": "all increasing sequences of observed values, all positive intervals", "why_tests_cant": "Arbitrary sequences of time steps.", "anchors": ["core/src/DyabloTimeLoop.h: Interval_trigger (l.32-67)"]}
{"id": "C32", "title": "Simulation ends exactly at the requested time and never overshoots", "statement": "In exact arithmetic the simulated time is non-decreasing, never exceeds tEnd when started before it, and if tEnd is reached it is reached exactly; the number of iterations never exceeds nstepmax.", "quantifier": "all sequences of positive time steps proposed by the solvers, all limits", "why_tests_cant": "Quantifies over all time step sequences.", "anchors": ["core/src/DyabloTimeLoop.h: IterationHandler (l.73-211), run (l.510-558)"]}
{"id": "C33", "title": "Outputs and checkpoints happen when requested, once each", "statement": "A run writes a snapshot at its first iteration, at its last, at every iteration that is a multiple of the output frequency and at the first iteration that has reached each multiple of the output interval, and at no other iteration; no iteration is written twice. The same holds for checkpoints, except that none is written at the start. (The time step is shortened only to reach the end time, so multiples of the interval are not hit exactly.)", "quantifier": "all runs: all sequences of time steps, frequencies, intervals, limits and interruptions", "why_tests_cant": "Quantifies over all step sequences.", "anchors": ["core/src/DyabloTimeLoop.h: output_trigger, checkpoint_trigger (l.149-169), step (l.563-600), run (l.510-545)"]}
{"id": "C34", "title": "Configuration lookup semantics", "statement": "Section and variable names are case-insensitive, the last assignment in the file wins (a continuation line assigns its variable again), a query with default returns the file value if present and otherwise the default of the first query of that variable, and repeated queries always return the same value.", "quantifier": "all configuration files and query sequences", "why_tests_cant": "Unbounded inputs and histories of queries.", "anchors": ["core/src/utils/config/ConfigMap.h: getValue, hasValue, valueHandler", "core/src/utils/config/inih/ini.cpp: ini_parse_stream"]}
{"id": "C35", "title": "Written configuration reads back", "statement": "The configuration file written at the end of a run, when parsed again, yields the same value for every variable.", "quantifier": "all configurations with printable values within the parser limits", "why_tests_cant": "Printer/parser inverse over all strings; comment characters and long lines are the boundary.", "anchors": ["core/src/utils/config/ConfigMap.h: output", "core/src/utils/config/inih/ini.cpp"]}
{"id": "C36", "title": "Restart reproduces the saved mesh", "statement": "Re-reading a checkpoint rebuilds exactly the saved set of octants, for any number of ranks at restart, whichever number wrote it.", "quantifier": "all balanced meshes, any writer and reader rank counts", "why_tests_cant": "Level-by-level refinement must reproduce arbitrary meshes; rank counts vary.", "anchors": ["core/src/init/InitialConditions_restart.cpp (l.207-337)", "core/src/io/IOManager_checkpoint.cpp"]}
{"id": "C37", "title": "Restart gives every octant its saved data", "statement": "Field data read back at restart is, for each octant, the data that was written for it, for any number of ranks on both sides.", "quantifier": "all meshes, data and rank counts", "why_tests_cant": "Global offsets by prefix sums over arbitrary decompositions.", "anchors": ["core/src/init/InitialConditions_restart.cpp", "core/src/utils/io/HDF5ViewWriter.h: collective_write"]}
{"id": "C38", "title": "Octant marker is the maximum over its cells", "statement": "The refinement marker of an octant is the maximum of the markers requested by its cells (at least -1), independently of the order in which cells are processed.", "quantifier": "all numbers of cells, all orders of atomic updates", "why_tests_cant": "Atomic max executed in arbitrary order.", "anchors": ["core/src/refine_condition/RefineCondition_helper.h: mark_cells (l.62-87)"]}
{"id": "C39", "title": "Flux update conserves mass, momentum and energy", "statement": "In exact arithmetic on a periodic mesh the finite-volume update leaves the volume-weighted total of every conserved variable unchanged, including across coarse-fine interfaces.", "quantifier": "all states, all flux functions, all grids of the modelled family", "why_tests_cant": "Requires pairing every interface flux in arbitrary meshes.", "anchors": ["core/src/hydro/HydroUpdate_utils.h: euler_update"]}
{"id": "C40", "title": "Primitive/conservative conversion round trip", "statement": "Converting conservative to primitive variables and back (and conversely) is the identity for positive density, in exact arithmetic.", "quantifier": "all states with non-zero density, gamma not 1", "why_tests_cant": "Continuous input domain.", "anchors": ["core/src/states/State_hydro.h: consToPrim, primToCons, swapComponents"]}
{"id": "C41", "title": "Riemann flux consistency", "statement": "For equal left and right states the numerical flux equals the physical flux (exact arithmetic).", "quantifier": "all physical states", "why_tests_cant": "Continuous input domain.", "anchors": ["core/src/hydro/RiemannSolvers.h: riemann_hllc"]}
{"id": "C42", "title": "Slope limiter creates no new extrema", "statement": "The limited slope is zero at local extrema and reconstructed face values stay between the cell value and the neighbour values.", "quantifier": "all neighbour values and positive distances", "why_tests_cant": "Continuous input domain.", "anchors": ["core/src/hydro/HydroUpdate_utils.h: compute_slope, reconstruct"]}
{"id": "C43", "title": "Boundary conditions mirror the right cell", "statement": "For absorbing/reflecting boundaries the value used outside the domain is that of the cell mirrored across the boundary, inside the block, with exactly the normal momentum negated for reflection.", "quantifier": "all block sizes, cells and offsets, all combinations of boundary types", "why_tests_cant": "Combination of sides, corners and offsets.", "anchors": ["core/src/boundary_conditions/BoundaryConditions.h: getBoundaryValue (l.55-128)"]}
{"id": "C44", "title": "Mesh queries never see a stale tree", "statement": "The read-only tree returned after any mesh modification reflects the current octants, and is not rebuilt when nothing changed.", "quantifier": "all histories of modifications and queries", "why_tests_cant": "Cache invalidation over arbitrary interleavings.", "anchors": ["core/src/amr/AMRmesh.h: getLightOctree / updateLightOctree (l.71-91)"]}
{"id": "C45", "title": "Global octant indices number the octants consecutively", "statement": "Over all ranks the global indices are exactly 0..N-1, in Morton order, and the reported global count is N, after every operation.", "quantifier": "all histories, any number of ranks", "why_tests_cant": "Prefix sums over all partitions.", "anchors": ["core/src/amr/AMRmesh_hashmap_new.cpp: getGlobalIdx, getGlobalNumOctants, adapt (l.955-962)"]}
{"id": "C46", "title": "Plugin factory and named enums are faithful registries", "statement": "Requesting a registered id gives the object registered under that id, 'none' gives nothing, unknown ids are rejected, and duplicate registrations are rejected; enum names read back to the enumerator they print, and only texts that denote an enumerator are accepted.", "quantifier": "all registration histories", "why_tests_cant": "All histories of registrations and queries.", "anchors": ["core/src/utils/misc/RegisteringFactory.h", "core/src/utils/config/named_enum.h"]}
{"id": "C47", "title": "Serial communicator is the one-rank communicator", "statement": "The serial implementation of the collectives returns what the collectives return on one rank: the receive buffer equals the send buffer.", "quantifier": "all buffer lengths and contents", "why_tests_cant": "All lengths, including 1.", "anchors": ["core/src/utils/mpi/MpiComm_single.tpp: MPI_Allreduce, MPI_Alltoall"]}
{"id": "C48", "title": "Particle mass deposition conserves mass", "statement": "Cloud-in-cell projection deposits exactly the particle mass onto cells (wherever the particle is away from open boundaries).", "quantifier": "all positions, all neighbouring level configurations", "why_tests_cant": "Continuous positions combined with all neighbour configurations.", "anchors": ["core/src/particles/ParticleUpdate_CIC_density.cpp"]}
{"id": "C49", "title": "Tabulated cosmology interpolation", "statement": "Interpolating the expansion/time tables returns table values at the nodes and values between neighbouring nodes elsewhere, for every argument the time loop may pass.", "quantifier": "all increasing tables and arguments in range, including both ends", "why_tests_cant": "Boundary arguments decide memory safety.", "anchors": ["core/src/Cosmo.h: lookup_interpolate (l.14-21)"]}
{"id": "C50", "title": "Index packing is a bijection", "statement": "Local/ghost octant indices, block cell indices, neighbour offsets and field/cell/octant array indices are packed into and unpacked from flat indices without collision or loss.", "quantifier": "all sizes and indices", "why_tests_cant": "All sizes.", "anchors": ["core/src/amr/LightOctree_base.h (l.24-39)", "core/src/amr/LightOctree_hashmap_precompute.h: offset_to_index", "core/src/userdata_utils.h"]}
{"id": "C51", "title": "Gravity source term preserves internal energy", "statement": "The gravity correction changes momentum by rho*g*dt and total energy by exactly the change of kinetic energy (exact arithmetic).", "quantifier": "all states, accelerations and time steps", "why_tests_cant": "Continuous input domain.", "anchors": ["core/src/hydro/HydroUpdate_euler.cpp: apply_gravity_correction"]}
{"id": "C52", "title": "Particle positions stay inside a periodic domain", "statement": "After a move with periodic wrapping every particle lies inside the domain.", "quantifier": "all positions, velocities and time steps", "why_tests_cant": "Continuous input domain; large displacements.", "anchors": ["core/src/particles/ParticleUpdate_CIC_move.cpp"]}
{"id": "C53", "title": "Mesh parameter checks accept exactly the valid coarse grids", "statement": "Constructing a mesh succeeds exactly for coarse grids that fit the given minimum level, and the reported global octant count is the number of coarse cells.", "quantifier": "all coarse grid sizes and levels", "why_tests_cant": "All sizes, including products above 2^32.", "anchors": ["core/src/amr/AMRmesh_hashmap_new.cpp: constructor (l.42-75)"]}
{"id": "C54", "title": "Boundary flag of an octant", "statement": "The boundary query on a local octant returns true exactly for the octants with a face on the boundary of the domain box.", "quantifier": "all meshes, all octants, 2D and 3D", "why_tests_cant": "All octants of all meshes.", "anchors": ["core/src/amr/LightOctree_storage.h: getBound (l.186-196)", "core/src/amr/AMRmesh_hashmap_new.h: getBound"]}
{"id": "C55", "title": "Neighbour query of a block-local array", "statement": "Asking a temporary (block-local, ghosted) array for the neighbour of one of its cells returns that cell when the offset stays inside the array and an invalid index when it leaves it.", "quantifier": "all block sizes, cells and offsets", "why_tests_cant": "Which branch runs depends on the position of the cell and the offset; tests use only a few shapes and never check the invalid index of temporary arrays.", "anchors": ["core/src/foreach_cell/AMRBlockForeachCell_CellArray.h: CellIndex::getNeighbor_ghost(offset, CellArray_shape)"]}
{"id": "C56", "title": "Partially exchanged ghost blocks are enough for stencil reads", "statement": "After a ghost exchange with partial blocks and ghost count g, every neighbour query from a local cell whose offset reaches at most g cells (counted in the smaller of the two cell sizes) reads the value that the owner of the designated cell holds, whether the octant is local or a ghost.", "quantifier": "all meshes, distributions over ranks, block sizes, ghost counts that fit the block, local cells, offsets within reach, orders of the parallel copies", "why_tests_cant": "Depends on which face each direction (including edges and corners) is recorded under, on the level difference between the two octants and on periodic wrap-around; a missing corner cell only shows up for particular meshes and partitions.", "anchors": ["core/src/amr/AMRmesh_hashmap_new.cpp: discover_ghosts, register_neighbor and face masks (l.345-404)", "core/src/mpi/GhostCommunicator_partial_blocks.cpp: init, exchange_ghosts", "core/src/mpi/GhostCommunicator.h: l.20-54"]}
{"id": "C57", "title": "Ghost counts that do not fit the block are rejected", "statement": "Constructing a partial-block ghost communicator either produces tables that list exactly the cells near each face or stops with the release assertion; it never writes outside its tables.", "quantifier": "all block sizes and ghost counts", "why_tests_cant": "Only block sizes with different extents along x and y and a ghost count between the two exercise the gap.", "anchors": ["core/src/mpi/GhostCommunicator_partial_blocks.cpp: DYABLO_ASSERT_HOST_RELEASE l.47, l.114, precompute_facemask_cells"]}
{"id": "C58", "title": "Particle attributes behave like independent arrays", "statement": "Over any sequence of create/delete/rename/write operations on the attributes of a particle container, reading an attribute by name gives what was last written to it; a new attribute reads zero; creating an attribute under a free name succeeds.", "quantifier": "all histories of attribute operations, all numbers of particles", "why_tests_cant": "Columns are reallocated and recycled; failures depend on the order of creations and deletions.", "anchors": ["core/src/UserData_particles.h: new_ParticleAttribute, move_ParticleAttribute, delete_ParticleAttribute (l.44-131)"]}
{"id": "C59", "title": "A new field covers the current mesh", "statement": "Whatever fields existed before and however the mesh changed meanwhile, a call that creates fields either fails or gives fields that can be read, as zero, in every cell of every local and ghost octant of the current mesh.", "quantifier": "all histories of field operations, all sizes of the old and new mesh", "why_tests_cant": "Needs a mesh change between the deletion of the last field and the next creation.", "anchors": ["core/src/UserData_fields.h: new_fields (l.66-122), extend_fields (l.43-60)"]}
{"id": "C60", "title": "Field accessors reach the requested fields", "statement": "An accessor built from a list of (name, identifier) pairs gives, for each identifier, the field of that name, and for each position the field at that position of the list; a list with a duplicate identifier is rejected.", "quantifier": "all field tables, all request lists", "why_tests_cant": "Depends on all combinations of names, identifiers and slots.", "anchors": ["core/src/UserData_fields.h: FieldAccessor (l.196-274)", "core/src/FieldManager.h: id2index_t"]}
{"id": "C61", "title": "A non-positive interval disables a trigger", "statement": "Setting an output, checkpoint, AMR or load balancing frequency or interval to zero or a negative value disables that trigger: it never fires, and the run is otherwise unaffected.", "quantifier": "all non-positive frequencies and intervals, all sequences of observed values", "why_tests_cant": "All sequences of observed values and all combinations of settings.", "anchors": ["core/src/DyabloTimeLoop.h: Interval_trigger (l.32-67), IterationHandler (l.91-98)"]}
{"id": "C62", "title": "AMR cycles and load balancing happen exactly at the multiples of their frequency", "statement": "In every run an AMR cycle is made at exactly those iterations after the first that are multiples of the AMR frequency, and load balancing at exactly those that are multiples of its frequency, whatever the start iteration, time steps and outputs.", "quantifier": "all runs from a non-negative iteration, all frequencies, time steps, output settings, interruptions", "why_tests_cant": "Quantifies over all runs of any length and start iteration.", "anchors": ["core/src/DyabloTimeLoop.h: amr_cycle_trigger, loadbalance_trigger (l.172-181), step (l.746-805)"]}
{"id": "C63", "title": "The time step obeys every limiter on every process", "statement": "The time step used at an iteration is positive and is the largest value at most the largest number for which no cell or particle of any process exceeds the CFL number of any enabled time step kernel; it is defined for any distribution of cells and particles over the processes.", "quantifier": "all numbers of kernels and processes, all distributions of cells and particles, all non-negative rates", "why_tests_cant": "All states and all distributions, including processes without particles.", "anchors": ["core/src/compute_dt/Compute_dt_hydro.cpp", "core/src/compute_dt/Compute_dt_parabolic.cpp", "core/src/compute_dt/Compute_dt_particle_velocity.cpp", "core/src/DyabloTimeLoop.h: step (l.606-616)"]}
{"id": "C64", "title": "Malformed configuration lines are reported", "statement": "A configuration file containing, anywhere, a line that is neither blank, a comment, a section header, an assignment nor an indented line is rejected when the configuration is constructed; it is never silently skipped.", "quantifier": "all files, all positions of the bad line, whatever stands before and after it", "why_tests_cant": "Arbitrary text before and after the line, including other errors and over-long lines.", "anchors": ["core/src/utils/config/inih/ini.cpp: ini_parse_stream", "core/src/utils/config/ConfigMap.h: ConfigMap(const std::string&)"]}
{"id": "C65", "title": "Defaults read back as themselves", "statement": "The query of a variable that is not in the file returns its default, for strings, booleans, integers, named enumerators and vectors of them: the text registered for the default is converted back to the same value.", "quantifier": "all defaults of these types, all configurations", "why_tests_cant": "Printer/parser inverse over unbounded strings, integers and vectors.", "anchors": ["core/src/utils/config/ConfigMap.h: getValue, to_string_t, convert_to_t", "core/src/utils/config/named_enum.h"]}
{"id": "C66", "title": "Ghost layers of a block hold the neighbouring field", "statement": "Every cell of a block widened by two layers reads the value of the field at that place on the grid of the block: the cell there, the bigger cell that contains it, or the mean of the smaller cells in it, through periodic boundaries, faces, edges, corners and process boundaries.", "quantifier": "all meshes reachable from construction, adaptation and load balancing, all fields, blocks, positions, ranks, 2D and 3D", "why_tests_cant": "Ghost layers depend on the shape of an arbitrary mesh around the block.", "anchors": ["core/src/hydro/CopyGhostBlockCellData.h: copyGhostBlockCellData"]}
{"id": "C67", "title": "A uniform flow is preserved", "statement": "On a periodic mesh without gravity a uniform state is left exactly unchanged by the hydrodynamic step, whatever the refinement.", "quantifier": "all reachable periodic meshes, all uniform states, all flux functions, time steps and block sizes", "why_tests_cant": "Every configuration of coarse-fine faces must cancel exactly.", "anchors": ["core/src/hydro/HydroUpdate_euler.cpp: HydroUpdate_euler", "core/src/hydro/HydroUpdate_utils.h: euler_update"]}
{"id": "C68", "title": "The hydrodynamic step does not depend on the partition", "statement": "The value computed for a cell depends on the field and the mesh only, not on the number of processes, on how octants are distributed over them, or on the previous content of the output array.", "quantifier": "all pairs of reachable meshes with the same octants, all fields, cells, flux functions and gravity settings", "why_tests_cant": "All partitions of all meshes would have to be run.", "anchors": ["core/src/hydro/HydroUpdate_euler.cpp: HydroUpdate_euler", "core/src/hydro/HydroUpdate_utils.h: euler_update"]}
{"id": "C69", "title": "The hydrodynamic step is the second-order finite-volume scheme", "statement": "After a step each cell holds its old value plus dt divided by the cell size times the difference, along each axis, of the fluxes through its two faces, plus the gravity source term. The flux through a face is that of the Riemann solver between the two gases extrapolated to the face with limited (minmod) slopes; through a face to smaller cells it is the mean of the fluxes through their faces.", "quantifier": "all reachable periodic meshes, fields, cells, block sizes, time steps, slope limiters, flux functions, ranks, 2D and 3D", "why_tests_cant": "The scheme must hold for every arrangement of coarse and fine neighbours and every field.", "anchors": ["core/src/hydro/HydroUpdate_euler.cpp: HydroUpdate_euler", "core/src/hydro/HydroUpdate_utils.h: euler_update, compute_euler_flux, compute_slope"]}
{"id": "C70", "title": "The Riemann solver resolves the three waves", "statement": "The flux between two gases is the flux at the face of a solution with three waves: outer waves at least as fast as sound in both gases, a contact strictly between them with equal speed and pressure on both sides, positive densities, and mass, momentum and energy conserved across each wave. In particular supersonic flow gives the physical flux of the upwind gas, an isolated contact is carried exactly, and the mirrored problem gives the mirrored flux.", "quantifier": "all pairs of physical states, all adiabatic indices above 1, all floors", "why_tests_cant": "The solver branches on real-valued wave speeds; the relations are identities over all pairs of states.", "anchors": ["core/src/hydro/RiemannSolvers.h: riemann_hllc"]}
{"id": "C71", "title": "Restart gives back every particle", "statement": "A restart reads every particle of the checkpoint on exactly one rank, with the position and attributes that were saved, for any number of particles and of ranks on both sides.", "quantifier": "all particle distributions and attribute values, all writer and reader rank counts", "why_tests_cant": "The share of a rank is computed with integer arithmetic that overflows only for large particle counts, and the attribute layout matters only when ranks hold different numbers of particles.", "anchors": ["core/src/init/InitialConditions_restart.cpp: init (l.301-335)", "core/src/io/IOManager_checkpoint.cpp (l.62-72)", "core/src/utils/io/HDF5ViewWriter.h: collective_write"]}
{"id": "C72", "title": "Repair of negative densities and pressures", "statement": "The pass that removes negative values replaces a negative density by the density floor and a negative pressure by the pressure floor, keeps the velocity, and leaves every quantity that was not negative unchanged; afterwards neither is negative.", "quantifier": "all states with non-zero density, all floors and adiabatic indices, 2D and 3D", "why_tests_cant": "Continuous states; density and pressure may be negative in any combination.", "anchors": ["core/src/hydro/HydroUpdate_utils.h: clean_negative_primitive_values (l.628-667)"]}
{"id": "C73", "title": "Numerical integration for the expansion table", "statement": "The integration used for the expansion table returns a value for every integrand, reads only its own arrays, and is exact for polynomials of degree up to three.", "quantifier": "all integrands, bounds and tolerances", "why_tests_cant": "Non-convergence depends on the integrand; exactness holds for a continuum of polynomials.", "anchors": ["core/src/Cosmo.h: Impl::romberg (l.33-67)"]}
{"id": "C74", "title": "The cell at a position", "statement": "Every position inside the box lies in exactly one cell of the mesh; the process that owns this cell finds it and no other process claims it. The centre reported for a cell lies in this cell, and the cell at that centre is the cell itself.", "quantifier": "all reachable meshes, block sizes, boxes, positions and processes", "why_tests_cant": "Positions are continuous and the mesh arbitrary; positions on cell faces and octant faces are the delicate ones.", "anchors": ["core/src/foreach_cell/AMRBlockForeachCell.h: getCellFromPos (l.84-129), getCellCenter (l.56-82)", "core/src/amr/LightOctree_hashmap.h: getiOctFromPos"]}
{"id": "C75", "title": "Nearest-cell deposition conserves mass", "statement": "The nearest-cell projection adds, for each particle, to the one cell that contains it a density whose mass in that cell is the mass of the particle.", "quantifier": "all reachable meshes, block sizes, boxes, particle positions and masses", "why_tests_cant": "Depends on the level of the cell, the block size and the box.", "anchors": ["core/src/particles/ParticleUpdate_NGP_density.cpp"]}
{"id": "C76", "title": "Acceleration and motion of particles", "statement": "A particle is accelerated by the mean of the field over its cloud, hence by a value between those of the cells that the cloud overlaps, and by the field itself where it is uniform; with the nearest-cell scheme by the value of its cell. Velocity then position are updated with the acceleration, and the position is brought back into the box by whole periods.", "quantifier": "all reachable meshes, fields, positions, velocities and time steps", "why_tests_cant": "Continuous positions combined with all neighbour configurations and fields.", "anchors": ["core/src/particles/ParticleUpdate_CIC_move.cpp", "core/src/particles/ParticleUpdate_NGP_move.cpp"]}
{"id": "C77", "title": "The gravity solver solves the Poisson equation", "statement": "The conjugate gradient gravity solver stops after at most as many iterations as there are cells, and the potential it stores satisfies the finite volume Poisson equation on the adaptive mesh within the requested relative residual: for each cell the sum over its faces of area times potential difference over distance equals 4 pi G times the excess of mass over the mean (or its cosmological form). The accelerations stored are minus the slopes of that potential.", "quantifier": "all reachable 3D meshes and partitions, block sizes, boxes, boundary types, densities, starting potentials, tolerances, contents of uninitialised ghost memory", "why_tests_cant": "Termination within the number of cells, absence of breakdown and the residual hold because of the algebra of the method on every mesh and field; tests only see a few meshes.", "anchors": ["core/src/gravity/GravitySolver_cg.cpp: update_gravity_field, matprod, get_value, b, b_cosmo, Aii"]}
{"id": "C78", "title": "The gravity matrix is symmetric, definite and conservative", "statement": "The matrix applied by the gravity solver is symmetric and positive semi-definite; without a wall at zero potential its columns add up to zero; it determines the potential up to one constant, and entirely if some wall is at zero potential.", "quantifier": "all reachable 3D meshes and partitions, block sizes, boxes, boundary types and fields", "why_tests_cant": "Symmetry across faces between cells of different sizes must hold for every pair of cells and every mesh; definiteness needs connectivity of the whole mesh.", "anchors": ["core/src/gravity/GravitySolver_cg.cpp: matprod (l.132-163), get_value (l.91-118)"]}
{"id": "C79", "title": "Gravity does not depend on the partition", "statement": "The potential, the accelerations and the number of iterations given by the gravity solver are the same however the octants are distributed over processes, and do not depend on uninitialised ghost memory.", "quantifier": "all pairs of reachable meshes with the same octants, all densities and starting potentials (exact arithmetic)", "why_tests_cant": "All partitions of all meshes.", "anchors": ["core/src/gravity/GravitySolver_cg.cpp: update_gravity_field, MPI_Allreduce_scalar, exchange_ghosts of CGdata"]}
{"id": "C80", "title": "The gas exerts no net force on itself", "statement": "On a periodic domain, with an exactly solved potential, the gravitational forces on all the cells add up to zero.", "quantifier": "all periodic 3D meshes and densities", "why_tests_cant": "A sum over all pairs of cells that must vanish for every density.", "anchors": ["core/src/gravity/GravitySolver_cg.cpp: gradient of the potential (l.380-440)"]}
{"id": "C81", "title": "A snapshot shows the mesh and its fields", "statement": "In the files written for visualisation there is one element per cell of the mesh; the corners of the element, read through the connectivity and the table of nodes, are the corners of the cell in the box, in the order of the element type; the values of fields, level, octant number and rank at this element are those of the cell. In the particle files the coordinates and the attributes on a row belong to the same particle and every particle has one row.", "quantifier": "all reachable distributed meshes, block sizes, boxes, fields, and orders in which the ranks reach the file", "why_tests_cant": "The global numbering depends on how octants are spread over ranks; errors appear only at particular distributions or above 2^32 indices, which no test allocates.", "anchors": ["core/src/io/IOManager_hdf5.cpp: save_snapshot_aux, save_particles", "core/src/utils/io/HDF5ViewWriter.h: collective_write"]}
{"id": "C82", "title": "The main file lists every snapshot", "statement": "At any time between two outputs, the main file of the time series is a complete document that lists the snapshots written so far, in order; a restarted run adds its snapshots to the list.", "quantifier": "all sequences of snapshots and runs, whatever the file contained before", "why_tests_cant": "Histories of runs of any length.", "anchors": ["core/src/io/IOManager_hdf5.cpp: MainXmfFile::append_xmf, create_file"]}
{"id": "C83", "title": "The initial mesh is the coarsest one that resolves the formula", "statement": "Starting a run with an initial condition given by a formula (shock tube, blast, ...) always completes. In the mesh it builds, no cell that may still be refined is one the formula asks to refine, and every other balanced mesh with this property is at least as fine everywhere. The mesh is the same for every number of processes, every order in which the cells are visited and every iteration order of the hash tables, and the processes own the same number of octants up to one.", "quantifier": "all domains, level bounds, block sizes, physical boxes, formulas (any function of centre and size of a cell), numbers of processes, visiting orders and hash table orders", "why_tests_cant": "The test meshes come from a few shipped formulas on one or a few processes. Whether an octant created for balance in the last round still has to be refined depends on the formula and on its neighbours, and coarsest-ness compares the result with all other meshes.", "anchors": ["core/src/init/InitialConditions_analytical.h: InitialConditions_analytical::init", "core/src/init/AnalyticalFormula.h: AnalyticalFormula_base", "core/src/init/InitialConditions_sod.cpp: AnalyticalFormula_sod::need_refine"]}
{"id": "C84", "title": "The initial fields are the formula at each cell", "statement": "After an initial condition given by a formula, every cell of every process holds the value of the formula at the centre of the cell with the size of the cell; no cell is skipped and none is written with the value of another one.", "quantifier": "all meshes a run can reach, block sizes, physical boxes, formulas and visiting orders", "why_tests_cant": "A test compares some cells of small meshes; the loop, the conversion from cell to position and the layout of the arrays must agree for every block shape, level and count of cells, and the loop counter is a 32-bit number.", "anchors": ["core/src/init/InitialConditions_analytical.h: InitialConditions_analytical::init", "core/src/foreach_cell/AMRBlockForeachCell.h: foreach_cell", "core/src/foreach_cell/AMRBlockForeachCell.h: getCellCenter, getCellSize"]}
{"id": "C85", "title": "The second order update is two steps of the first order scheme and a mean", "statement": "With the Runge-Kutta hydrodynamic update, the new state of every cell is the mean of its state and of the state after two successive forward steps of the finite-volume scheme, the second one using the values of the first at every neighbour, on whichever process it lives. So, as long as no negative density or pressure has to be repaired, the totals of mass, momentum and energy of a periodic box are kept; a uniform flow stays uniform; the result does not depend on how the octants are shared out; and positive densities and pressures stay so.", "quantifier": "all periodic meshes a run can reach, blocks, numbers of processes, flux functions, gravity settings, states and time steps", "why_tests_cant": "Tests compare one problem on one or two processes within a tolerance; a missing exchange between the stages, a stage that reads the wrong array or a flux that differs on the two sides of a level jump shows on some meshes and partitions only.", "anchors": ["core/src/hydro/HydroUpdate_RK2.cpp: update_aux, rk_update, rk_correct", "core/src/hydro/HydroUpdate_utils.h: euler_update, clean_negative_primitive_values"]}
{"id": "C86", "title": "Thermal conduction moves heat between neighbouring cells and creates none", "statement": "With explicit thermal conduction, the energy of every cell changes in a time step by what enters through its faces: conductivity (mean of the values at the centres of the two cells) times area times the difference of temperature over the distance of the centres, with all the small cells that touch a face of a bigger one and on whichever process the neighbour lives. Density and momentum do not change. So the total energy of a periodic box is kept, a gas at one temperature stays as it is, the hottest cell does not gain energy and the coldest does not lose any, and the result does not depend on how the octants are shared out.", "quantifier": "all periodic meshes a run can reach, blocks, numbers of processes, states, time steps, adiabatic indices and conductivities as functions of the position", "why_tests_cant": "A test runs one profile on one mesh within a tolerance; what the two sides of a face take for the flux can differ at some level jump or process boundary only.", "anchors": ["core/src/parabolic/ParabolicUpdate_explicit.cpp: update", "core/src/parabolic/ParabolicTerm_thermal_conduction.h: compute_rhs, compute_flux, compute_kappa"]}
{"id": "C87", "title": "Viscosity applies the divergence of the stress of a Newtonian fluid", "statement": "With explicit viscosity, the momentum and energy of every cell change in a time step by the divergence of the viscous stress and of its power, with the velocity gradients taken on the faces from the neighbouring cells, on whichever process they live. Density does not change. So the total momentum and energy of a periodic box are kept, a gas that moves as a whole feels nothing, and the result does not depend on how the octants are shared out.", "quantifier": "all periodic meshes a run can reach, in two and three dimensions, blocks, numbers of processes, states, time steps, adiabatic indices and viscosities", "why_tests_cant": "A test runs one flow on one mesh of one level; a wrong component, sign or size in one of the stress terms and losses where the cell size changes show for some flows, levels and dimensions only.", "anchors": ["core/src/parabolic/ParabolicUpdate_explicit.cpp: update", "core/src/parabolic/ParabolicTerm_viscosity.h: compute_rhs"]}
{"id": "C88", "title": "Particles are held by the process that owns their position", "statement": "After particles are redistributed, every particle that existed before exists exactly once, with its position and all of its attributes, on the process that owns the octant of its position, wherever it was before. So that process finds the cell of the particle among its own octants.", "quantifier": "all meshes a run can reach, boxes, numbers of processes, particles inside of the box with any attributes on any process, and orders in which messages arrive", "why_tests_cant": "A test moves a few particles over two processes on one mesh; particles on sides of the box or of octants, domains that are not cubes, empty processes and refined meshes are decided by rounding and by the order of the octants.", "anchors": ["core/src/particles/ForeachParticle.h: get_distribute_communicator, distribute", "core/src/UserData_particles.h: distributeParticles", "core/src/amr/LightOctree_hashmap.h: getDomainFromPos"]}
{"id": "C89", "title": "A grid of particles is complete", "statement": "The initial condition that puts particles on a regular grid creates nx times ny times nz particles, one at the centre of each cell of that grid, shared out over the processes. All have the same mass and their masses add up to the total mass. Each one has the velocity of the gas in the cell it is created in, is displaced by this velocity times the given time and brought back into the box by whole periods, and is held by the process that owns the octant of its final position.", "quantifier": "all meshes a run can reach, blocks, boxes, grid sizes, masses, states of the gas, displacement times and numbers of processes", "why_tests_cant": "A test builds one small grid on one or two processes; the number of particles, the shares of the processes and the cell of each particle depend on sizes far beyond what a test builds, on the dimension and on refinement.", "anchors": ["core/src/init/InitialConditions_particle_grid.cpp: init", "core/src/foreach_cell/ForeachCell_utils.h: getCellFromPos", "core/src/particles/ForeachParticle.h: get_distribute_communicator"]}
{"id": "C90", "title": "The Hancock update is the MUSCL-Hancock scheme and keeps totals", "statement": "One step of the Hancock update changes every cell by the fluxes of the MUSCL-Hancock scheme: the gas of each cell is advanced by half a step from its limited slopes by the Euler equations, extrapolated to the faces, and the Riemann fluxes there change the cell; neighbours are read on the grid of the level of the cell, whatever process owns them. Uniform gas stays as it is, the result does not depend on how the octants are shared out over processes, and without gravity the totals of mass, momentum and energy are unchanged as long as no cell needs a repair.", "quantifier": "all meshes a run can reach, blocks, boxes, states of the gas, time steps, Riemann solvers and numbers of processes", "why_tests_cant": "A test compares one flow on one mesh with stored values; the stencil crosses octants, levels and processes in combinations that depend on the history of the mesh, and conservation must hold for every state.", "anchors": ["core/src/hydro/HydroUpdate_hancock.cpp: update_aux, compute_slopes, reconstruct_state, compute_flux, compute_fluxes", "core/src/hydro/HydroUpdate_utils.h: compute_source, compute_slope"]}
{"id": "C91", "title": "Flux-flux cooling moves energy and creates none", "statement": "The flux-flux cooling takes energy from the cells along the lower side of the box (ymin in 2D, zmin in 3D) and gives energy to the cells along the upper side: per time, the configured flux times the area of the side, whatever the levels of these cells and the processes that own them. No other cell changes, and the total energy of the box is unchanged.", "quantifier": "all meshes a run can reach, blocks, boxes, fluxes, time steps, states and numbers of processes", "why_tests_cant": "The rows along the two sides are made of cells of different levels and processes; that the two sums cancel must hold for every refinement history, a test looks at one mesh.", "anchors": ["core/src/cooling/CoolingUpdate_FF.cpp: CoolingUpdate_FF, update_aux"]}
{"id": "C92", "title": "Refinement criteria mark the octants they describe", "statement": "With the mass, downflow and pseudo-gradient criteria an octant is marked for refinement exactly when the quantity (mass of a cell, velocity downwards, contrast of the density with a cell that shares a face) is above the upper threshold in one of its cells and its level is below the maximum; it is marked for coarsening exactly when the quantity is above no threshold in any of its cells and its level is above the minimum; otherwise it is left. Neither the order in which cells are visited nor the distribution of the octants over processes matters.", "quantifier": "all meshes a run can reach (2D and 3D, every boundary type, every block size), fields, thresholds, orders of visits, numbers of processes", "why_tests_cant": "The contrast looks across faces to cells that are larger, smaller or owned by another process; that no neighbour is missed or taken twice must hold for every refinement history and every schedule.", "anchors": ["core/src/refine_condition/RefineCondition_mass.cpp: getMarker", "core/src/refine_condition/RefineCondition_downflows.cpp: getMarker", "core/src/refine_condition/RefineCondition_pseudo_gradient.cpp: getMarker", "core/src/refine_condition/RefineCondition_helper.h: mark_cells_aux, set_markers"]}
{"id": "C93", "title": "Second-derivative criterion refines and coarsens", "statement": "With the second-derivative criterion an octant is marked for refinement exactly when the relative second difference of the density or of the pressure is above error_max in one of its cells, and for coarsening exactly when it is at most error_min in all of them (within the limits on levels).", "quantifier": "all meshes a run can reach, blocks, fields, thresholds, orders of visits, numbers of processes", "why_tests_cant": "The stencil reaches into blocks of other levels and other processes; the marker of an octant is a maximum over concurrent updates, for every schedule.", "anchors": ["core/src/refine_condition/RefineCondition_second_derivative_error.cpp: second_derivative_error, mark_cells_aux"]}
{"id": "C94", "title": "Parabolic time step keeps temperatures in bounds", "statement": "The limiter of the parabolic terms answers with the largest step whose product with the conductivity and the viscosity, at the centre of every cell, is at most parabolic_cfl times the square of every side of the cell. One explicit step of heat conduction of that length, with a parabolic_cfl below 0.5 as documented, leaves every temperature of a gas at rest between the lowest and the highest temperature before the step.", "quantifier": "all meshes a run can reach, blocks, conductivities, densities, temperatures, Courant numbers, numbers of processes", "why_tests_cant": "Stability must hold for every distribution of temperatures, density and conductivity and every mesh; a test with smooth data in one dimension never shows the unstable modes.", "anchors": ["core/src/compute_dt/Compute_dt_parabolic.cpp: Compute_dt_parabolic::compute_dt, compute_dt_aux", "core/src/parabolic/ParabolicUpdate_explicit.cpp", "core/src/parabolic/ParabolicTerm_thermal_conduction.h"]}
{"id": "C95", "title": "Tracers follow the gas and stay in the domain", "statement": "One update of the tracer particles moves each tracer by the time step times the velocity of the gas in the cell that contains it, whichever process holds it. In a periodic domain a tracer that crosses a side comes back through the opposite side, so that it stays in the domain and the following updates can move it again.", "quantifier": "all meshes a run can reach, blocks, domains, gas fields, positions of tracers, time steps shorter than the crossing of a cell, processes", "why_tests_cant": "A test follows a few tracers for a few steps; that each tracer finds its own cell on every refined mesh and that none is ever lost must hold for all positions and velocities.", "anchors": ["core/src/particles/ParticleUpdate_tracers_move.cpp: ParticleUpdate_tracers_move::update", "core/src/foreach_cell/AMRBlockForeachCell.h: getCellFromPos"]}
{"id": "C96", "title": "Analytical gravity is the field of its formula", "statement": "Updating a gravity field given by a formula writes for every cell of every process the value of the formula at the centre of the cell, and the third component only in three dimensions. With the point mass this value is the softened Newtonian attraction - Gmass * r / d^3 where r is the position relative to the mass among the coordinates of the simulation and d^2 = |r|^2 + softening^2.", "quantifier": "all meshes a run can reach, blocks, domains, formulas of the position, masses, softening lengths, two and three dimensions, processes", "why_tests_cant": "The value must be right at every cell of every mesh and for every position of the mass, in both dimensions.", "anchors": ["core/src/gravity/GravitySolver_analytical.tpp: GravitySolver_analytical::update_gravity_field", "core/src/gravity/GravitySolver_point_mass.cpp: AnalyticalFormula_gravity_point_mass::value"]}
{"id": "C97", "title": "No particle crosses its cell in one step", "statement": "When the time step is at most the answer of the particle limiter, no particle of any process, moving with its velocity, goes further than particle_cfl times the smallest side of the cell it is in.", "quantifier": "all meshes a run can reach, blocks, domains, processes, particles with their positions and velocities, Courant numbers", "why_tests_cant": "The bound must hold for every velocity, including signs and very small values, every cell size and every process.", "anchors": ["core/src/compute_dt/Compute_dt_particle_velocity.cpp: Compute_dt_particle_velocity::compute_dt, compute_dt_aux"]}
{"id": "C98", "title": "Fortran records are read back whatever their byte order", "statement": "Reading a record of an unformatted Fortran file returns the values that were written and leaves the stream after the record, whether the file has its most or its least significant bytes first and whatever was read before. The header of a grafic file is read with its eleven fields in their order.", "quantifier": "all records shorter than 2^31 bytes, sizes of values, values, byte orders, previous states of the reader, rest of the stream, sequences of records", "why_tests_cant": "Tests read a file or two of the byte order at hand; detection depends on the bytes of every possible record size and on the order in which files were read.", "anchors": ["core/src/utils/io/FortranBinaryReader.h: FortranBinaryReader::read_record, endian_swap", "core/src/init/InitialConditions_grafic_fields.cpp: grafic_header, InitialConditions_grafic_fields"]}
{"id": "C99", "title": "Particles given by lists are all created", "statement": "With npart particles and lists of coordinates, velocities and masses in the .ini file, the initial condition creates npart particles; particle i has the i-th value of each list (0 where a list is shorter or absent, further values are ignored) and is held by the process that owns its position.", "quantifier": "all numbers of particles, lists of any length, meshes a run can reach, processes, orders of messages", "why_tests_cant": "The copy of the lists must stay inside of its arrays for every combination of lengths; reading past the end of a vector often goes unnoticed in a test.", "anchors": ["core/src/init/InitialConditions_simple_particles.cpp: InitialConditions_simple_particles, init", "core/src/particles/ForeachParticle.h: distribute"]}
{"id": "C100", "title": "Courant condition of the gas in every cell", "statement": "The time step proposed by Compute_dt_hydro (without magnetic field) is positive, and is the largest step d such that, in every cell of every process whose gas has a positive density and no negative pressure, d times the sum over axes of (|v| + c) over the side of the cell is at most hydro_cfl, with c = sqrt(gamma p / rho). In particular no wave v, v + c or v - c goes further than hydro_cfl times the side of its cell, as documented. Cells with an invalid gas do not change this for the others.", "quantifier": "all meshes a run can reach, blocks, gas states, Courant numbers, numbers of processes", "why_tests_cant": "A single cell decides the step; the claim ranges over every distribution of the gas, the order in which cells are visited and the processes, and the failure needs an invalid state next to valid ones.", "anchors": ["core/src/compute_dt/Compute_dt_hydro.cpp: Compute_dt_hydro::compute_dt, compute_dt_aux", "core/src/real_type.h: FMAX", "core/src/foreach_cell/AMRBlockForeachCell.h: reduce_cell"]}
{"id": "C101", "title": "Scalar data keep the last value of each variable", "statement": "After construction from lists and any history of set and of assignments through the references given by get, get<T>(name) gives the last value given to that name for the type T (of two entries of the constructor with one name, the first), and throws exactly when there was none; assigning through a reference needs the variable to exist. Integers and reals of one name are independent. foreach_var visits every variable exactly once with its value, integers first, each type in the order of names.", "quantifier": "all histories of calls, names and values", "why_tests_cant": "The claim ranges over every history and set of names; a test sets a few names once.", "anchors": ["core/src/utils/misc/MultiTypeMap.h: MultiTypeMap::get, set, foreach_var", "core/src/ScalarSimulationData.h"]}
