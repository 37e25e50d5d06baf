{
 "claims": [
  {
   "property": "C01",
   "status": "proved",
   "theorems": [
    "C01_roundtrip_2D",
    "C01_roundtrip_3D",
    "C01_roundtrip_3D_exact",
    "C01_key_range_3D",
    "C01_key_range_2D",
    "C01_key_is_interleaving"
   ],
   "note": "bit-level proof for all coordinates; also key range and interleaving specification"
  },
  {
   "property": "C02",
   "status": "proved",
   "theorems": [
    "C02_parent_key",
    "C02_keys_distinct",
    "C02_descendants_contiguous",
    "C02_no_gaps",
    "C02_shift_level"
   ],
   "note": "parent key, injectivity, contiguous and gap-free descendant interval, shift_level"
  },
  {
   "property": "C03",
   "status": "proved",
   "theorems": [
    "C03_initial_mesh"
   ],
   "note": "for at least one coarse cell per rank and fewer than 2^32 coarse cells"
  },
  {
   "property": "C04",
   "status": "proved",
   "theorems": [
    "C04_tiles",
    "C04_progress",
    "C04_refuted_emptied_rank",
    "C04_refuted_level_min_0"
   ],
   "note": "all completed histories (level_min >= 1, at least one coarse cell per rank); progress proved when every rank keeps an octant; the refuted theorems show the code fails when a rank loses all octants in adapt, and for level_min = 0"
  },
  {
   "property": "C05",
   "status": "proved",
   "theorems": [
    "C05_balanced",
    "C05_adapt"
   ],
   "note": "level_min >= 1"
  },
  {
   "property": "C06",
   "status": "proved",
   "theorems": [
    "C06_least_change",
    "C06_requests_honoured",
    "C06_global_refine",
    "C06_refuted_level_min_0"
   ],
   "note": "applied markers are the least legal ones; level_min >= 1 (refuted for level_min = 0: unsigned wrap)"
  },
  {
   "property": "C07",
   "status": "proved",
   "theorems": [
    "C07_independent_of_partition"
   ],
   "note": "any two consistent meshes with the same leaves, whatever rank counts, partitions, ghost and hash orders"
  },
  {
   "property": "C08",
   "status": "proved",
   "theorems": [
    "C08_terminates"
   ],
   "note": "bound 2N+1 on inner and outer rounds; all ranks leave together by construction of the Allreduce"
  },
  {
   "property": "C09",
   "status": "proved",
   "theorems": [
    "C09_complete_families"
   ],
   "note": ""
  },
  {
   "property": "C10",
   "status": "proved",
   "theorems": [
    "C10_levels"
   ],
   "note": "histories whose markers come from the model of RefineCondition_helper (mark_cells, set_markers)"
  },
  {
   "property": "C11",
   "status": "proved",
   "theorems": [
    "C11_load_balance"
   ],
   "note": "consistent meshes without empty ranks; compact_levels up to 21 (larger shifts are undefined behaviour)"
  },
  {
   "property": "C12",
   "status": "proved",
   "theorems": [
    "C12_payload_follows"
   ],
   "note": "for arbitrary payload types"
  },
  {
   "property": "C13",
   "status": "proved",
   "theorems": [
    "C13_ghosts",
    "C13_refuted_more_ranks_than_cells"
   ],
   "note": "refuted theorem: with more ranks than coarse cells the ghost layer is wrong after the first adapt; restarts of the hash table are in GhostRestart"
  },
  {
   "property": "C14",
   "status": "proved",
   "theorems": [
    "C14_find_rank"
   ],
   "note": "all sorted interval lists, empty intervals included"
  },
  {
   "property": "C15",
   "status": "proved",
   "theorems": [
    "C15_neighbours",
    "C15_zero_offset",
    "C15_boundary",
    "C15_shape"
   ],
   "note": "on every consistent distributed mesh, local octants; zero offset, boundary and number of neighbours also characterised"
  },
  {
   "property": "C16",
   "status": "proved",
   "theorems": [
    "C16_symmetric"
   ],
   "note": ""
  },
  {
   "property": "C17",
   "status": "proved",
   "theorems": [
    "C17_precomputed",
    "C17_built"
   ],
   "note": "table built by the two kernels in any order; local octants read the table, ghosts the direct query; on every list of octants"
  },
  {
   "property": "C18",
   "status": "partial",
   "theorems": [
    "C18_location",
    "C18_owner_partial",
    "C18_refuted_non_cubic"
   ],
   "note": "location proved for all consistent meshes and positions (exact arithmetic); owner query proved for cubic coarse grids and refuted for non-cubic ones"
  },
  {
   "property": "C19",
   "status": "proved",
   "theorems": [
    "C19_exchange_ghosts",
    "C19_ghost_values"
   ],
   "note": "flat buffers of ViewCommunicator for arbitrary send lists (self-sends included), both layouts, any order of deliveries and kernel iterations; and on every consistent mesh"
  },
  {
   "property": "C20",
   "status": "proved",
   "theorems": [
    "C20_reduce_ghosts",
    "C20_mesh"
   ],
   "note": "any commutative monoid and any order of atomic additions; flat buffers and consistent meshes"
  },
  {
   "property": "C21",
   "status": "proved",
   "theorems": [
    "C21_distribute",
    "C21_exactly_once",
    "C21_attributes_together"
   ],
   "note": "any destinations, any order; destinations themselves (getDomainFromPos) are C18"
  },
  {
   "property": "C22",
   "status": "proved",
   "theorems": [
    "C22_exchange",
    "C22_reduce",
    "C22_cells"
   ],
   "note": "cells of every mask exactly once, for all block sizes and ghost counts that fit; exchange and reduction of partial blocks between any number of ranks, any order of the parallel writes"
  },
  {
   "property": "C23",
   "status": "partial",
   "theorems": [
    "C23_foreach_cell_partial",
    "C23_groups_same_partial",
    "C23_groups_partial",
    "C23_slots",
    "C23_scratch",
    "C23_refuted_overflow"
   ],
   "note": "foreach_cell and groups for fewer than 2^32 cells per process (refuted beyond: the product is computed in 32 bits); scratch teams and slots of temporaries without bound"
  },
  {
   "property": "C24",
   "status": "proved",
   "theorems": [
    "C24_wide_neighbour",
    "C24_wide_first",
    "C24_roundtrip",
    "C24_narrow_local"
   ],
   "note": "round trip and centre for all symmetric ghost layers; local narrowing; conversion across octants on every consistent mesh, for ghost layers up to half a block"
  },
  {
   "property": "C25",
   "status": "partial",
   "theorems": [
    "C25_neighbour",
    "C25_touching_partial",
    "C25_smaller_neighbours",
    "C25_refuted",
    "C25_smaller_any"
   ],
   "note": "the cell found is the one at the requested position (same size, containing, or a half of it) on every consistent mesh, all offsets up to half a block, odd blocks included; it touches the cell that asks and is the first such half except for diagonal offsets that stay in the block along a negative component (refuted there); iteration over smaller neighbours visits exactly the facing halves"
  },
  {
   "property": "C26",
   "status": "proved",
   "theorems": [
    "C26_boundary"
   ],
   "note": "every request that leaves a non-periodic domain"
  },
  {
   "property": "C27",
   "status": "partial",
   "theorems": [
    "C27_conserved_partial"
   ],
   "note": "for every AMR cycle on a consistent mesh, all data, odd blocks included, when no coarsened family is split over ranks (exact arithmetic); a split family makes the procedure run forever"
  },
  {
   "property": "C28",
   "status": "partial",
   "theorems": [
    "C28_one_pass",
    "C28_remap_partial",
    "C28_diverges",
    "C28_refuted"
   ],
   "note": "one pass is right on every rank given up-to-date ghost copies; the whole procedure is right when no coarsened family is split over ranks; refuted otherwise: it never ends, whatever the data"
  },
  {
   "property": "C29",
   "status": "partial",
   "theorems": [
    "C29_histories_partial",
    "C29_refuted"
   ],
   "note": "all histories on a mesh that does not change, except renaming a field to its own name, which deletes it (refuted)"
  },
  {
   "property": "C30",
   "status": "partial",
   "theorems": [
    "C30_survives_partial",
    "C30_refuted"
   ],
   "note": "refuted: raw slots are copied while names are renumbered, one step of the time loop then load balancing restores old data; proved for every load balance when slots follow the order of names, 1 to 32 fields"
  },
  {
   "property": "C31",
   "status": "partial",
   "theorems": [
    "C31_fires",
    "C31_restart",
    "C31_fires_counter",
    "C31_refuted_negative"
   ],
   "note": "Proved for real valued triggers from any start (C31_fires, C31_restart) and for iteration triggers from a non-negative start (C31_fires_counter). Refuted for iteration triggers from a negative start: the integer division truncates towards zero (C31_refuted_negative)."
  },
  {
   "property": "C32",
   "status": "partial",
   "theorems": [
    "C32_end_partial",
    "C32_terminates",
    "C32_refuted_limit",
    "C32_refuted_backward"
   ],
   "note": "Proved for end variable time, started before the limits (C32_end_partial, C32_terminates). Refuted: a run started at nstepmax makes one more iteration (C32_refuted_limit), one started after tEnd goes back in time (C32_refuted_backward). End variable aexp: only termination through nstepmax is covered."
  },
  {
   "property": "C33",
   "status": "partial",
   "theorems": [
    "C33_outputs",
    "C33_multiples",
    "C33_refuted_aexp"
   ],
   "note": "Characterisation proved for slice variables that do not decrease along the run (C33_outputs), which holds for time when started before tEnd (C33_multiples). Refuted for slices in aexp: the value tested is that of the previous iteration, so outputs come one iteration late (C33_refuted_aexp). The first version of this property claimed that multiples of the interval are hit exactly; the code does not attempt this and the statement was corrected."
  },
  {
   "property": "C34",
   "status": "partial",
   "theorems": [
    "C34_file_partial",
    "C34_whitespace",
    "C34_history",
    "C34_default",
    "C34_repeat",
    "C34_default_defined",
    "C34_refuted_long",
    "C34_refuted_section"
   ],
   "note": "Proved: for every well-formed file with lines of at most 199 characters and section names of at most 49, every variable has the value of its last assignment, names without case, and no other variable is defined (C34_file_partial); for every history of queries the text never changes, a missing variable takes the default of its first query, and repeated queries give the same answer (C34_history, C34_default, C34_repeat, C34_default_defined). Refuted: longer lines are cut and their end read as another line (C34_refuted_long), longer section names are cut (C34_refuted_section). Types are abstract conversions; floating point conversions are not modelled."
  },
  {
   "property": "C35",
   "status": "partial",
   "theorems": [
    "C35_readback_partial",
    "C35_refuted_semicolon",
    "C35_refuted_long"
   ],
   "note": "Proved for any accepted text and any history of queries when every written line has at most 199 characters, no value starts with a semicolon, no name ends with a blank and defaults fit on a line (C35_readback_partial). Refuted: a value starting with ; is lost because output adds a blank before it (C35_refuted_semicolon); padding makes an accepted line too long to be read back (C35_refuted_long)."
  },
  {
   "property": "C36",
   "status": "partial",
   "theorems": [
    "C36_restart_partial"
   ],
   "note": "Proved for any writer and reader rank counts, writing order and hash table orders, success and equality of the octants in order, for meshes below 2^32 octants (the reader keeps the global count in 32 bits). Writer and reader share level range, coarse grid and boundary conditions."
  },
  {
   "property": "C37",
   "status": "partial",
   "theorems": [
    "C37_fields_partial"
   ],
   "note": "Proved for any field and rank counts on a mesh restarted as in C36, with the same bound of 2^32 octants. The transposition of the field array is C50; HDF5 is trusted to store what is written."
  },
  {
   "property": "C38",
   "status": "proved",
   "theorems": [
    "C38_marker_is_maximum",
    "C38_order_independent",
    "C38_mark_cells",
    "C38_clamp"
   ],
   "note": "any order of atomic updates; clamping characterised"
  },
  {
   "property": "C39",
   "status": "partial",
   "theorems": [
    "C39_conservation_partial",
    "C39_total",
    "C39_refuted_well_balanced",
    "C39_clean",
    "C39_refuted_clean"
   ],
   "note": "Proved for periodic meshes, any flux function, 2D and 3D, any partition: mass always, momentum and energy without gravity. Refuted with the well-balanced option (coarse-fine faces) and for the pass that repairs negative states. Non-periodic domains are not covered. Blocks must have an even number (at least 4) of cells per axis."
  },
  {
   "property": "C40",
   "status": "proved",
   "theorems": [
    "C40_meaning",
    "C40_meaning_back",
    "C40_cons_roundtrip",
    "C40_prim_roundtrip",
    "C40_stored_roundtrip"
   ],
   "note": "Exact rationals. In 2D the third component is not stored and is 0."
  },
  {
   "property": "C41",
   "status": "proved",
   "theorems": [
    "C41_flux"
   ],
   "note": "HLLC solver with an arbitrary positive function for the square root; physical states above the density and pressure floors. Stated for the flux through a face along each axis with equal states and zero slopes."
  },
  {
   "property": "C42",
   "status": "proved",
   "theorems": [
    "C42_slope",
    "C42_faces",
    "C42_interface",
    "C42_floor"
   ],
   "note": "minmod slopes and face values for all distances; C42_interface: the four values cell, face, face, cell are monotone for every level difference. The density floor is the only exception (C42_floor)."
  },
  {
   "property": "C43",
   "status": "partial",
   "theorems": [
    "C43_swapped",
    "C43_mirror_partial",
    "C43_refuted",
    "C43_refuted_corner"
   ],
   "note": "mirrored cell and reversed momentum characterised exactly for all cells and conditions; the conditions of the two sides are exchanged (refuted), right when both sides agree; corner indices that leave the block inside the domain are conditioned too (refuted)"
  },
  {
   "property": "C44",
   "status": "partial",
   "theorems": [
    "C44_fresh",
    "C44_builds",
    "C44_runs_partial",
    "C44_refuted_alone"
   ],
   "note": "Freshness and number of rebuilds proved for every program of allowed modifications and queries. That a program runs to its end is proved when in each phase all ranks or none ask for the tree (fewer than 2^31 - 1 modifications: the epoch is an int); refuted when a rank asks alone, the construction being collective."
  },
  {
   "property": "C45",
   "status": "proved",
   "theorems": [
    "C45_numbered",
    "C45_indices"
   ],
   "note": ""
  },
  {
   "property": "C46",
   "status": "partial",
   "theorems": [
    "C46_factory",
    "C46_enum",
    "C46_enum_tables",
    "C46_enum_unknown",
    "C46_refuted_enum_number"
   ],
   "note": "Proved: factory for any history of registrations (C46_factory); enumerations with distinct, non-numeric names, among them all tables of the code (C46_enum, C46_enum_tables); unknown names rejected (C46_enum_unknown). Refuted: any number is accepted for an enumeration, enumerator or not (C46_refuted_enum_number). init/DECLARE_REGISTERED and static initialisation order are not modelled."
  },
  {
   "property": "C47",
   "status": "partial",
   "theorems": [
    "C47_refuted",
    "C47_in_place",
    "C47_iff",
    "C47_refuted_particles"
   ],
   "note": "the property is false for the code: refuted for every count >= 1 whose last elements differ; exact characterisation of the calls that behave correctly"
  },
  {
   "property": "C48",
   "status": "partial",
   "theorems": [
    "C48_cloud_partial",
    "C48_loss",
    "C48_refuted",
    "C48_refuted_plane"
   ],
   "note": "In three dimensions away from non-periodic boundaries: each part of the cloud goes to the cells it overlaps and the total is the mass, unless smaller cells lie across an edge or a corner (C48_cloud_partial); in that case mass is lost, never gained (C48_loss, C48_refuted). Two dimensions: the deposition reads outside the layer of cells (C48_refuted_plane)."
  },
  {
   "property": "C49",
   "status": "partial",
   "theorems": [
    "C49_interpolate_partial",
    "C49_roundtrip_partial",
    "C49_table",
    "C49_refuted_start",
    "C49_beyond_table"
   ],
   "note": "Proved above the first node and up to the last, with the round trip expansion to time and back. Refuted at the first node: the start of every cosmological run reads the element before the table."
  },
  {
   "property": "C50",
   "status": "proved",
   "theorems": [
    "C50_cell_index",
    "C50_octant_index",
    "C50_offsets",
    "C50_array_elements",
    "C50_transpose_from",
    "C50_transpose_to",
    "C50_transpose_roundtrip"
   ],
   "note": "octant index, offsets, cells of a block, array element addresses and the transposing copies"
  },
  {
   "property": "C51",
   "status": "proved",
   "theorems": [
    "C51_gravity",
    "C51_pressure"
   ],
   "note": "The density of the momentum source is the mean of the densities before and after the step."
  },
  {
   "property": "C52",
   "status": "partial",
   "theorems": [
    "C52_wrap_partial",
    "C52_refuted_large_step",
    "C52_refuted"
   ],
   "note": "proved for displacements down to one period below the domain, refuted beyond (fmod truncates toward zero); exact arithmetic"
  },
  {
   "property": "C53",
   "status": "partial",
   "theorems": [
    "C53_accepts",
    "C53_rejects_partial",
    "C53_refuted",
    "C53_refuted_accepts",
    "C53_count_partial",
    "C53_refuted_count"
   ],
   "note": "valid grids are accepted; invalid ones are not all rejected (refuted: operator precedence in the third axis check, zero sizes); octant count right below 2^32 and refuted above"
  },
  {
   "property": "C54",
   "status": "partial",
   "theorems": [
    "C54_bound_3d_partial",
    "C54_refuted_2d",
    "C54_refuted"
   ],
   "note": "proved in 3D, false in 2D (every octant is flagged)"
  },
  {
   "property": "C55",
   "status": "partial",
   "theorems": [
    "C55_refuted_inside",
    "C55_refuted_outside",
    "C55_refuted"
   ],
   "note": "the property is false for the code: the test is inverted, valid requests give an invalid index"
  },
  {
   "property": "C56",
   "status": "proved",
   "theorems": [
    "C56_facing_cells",
    "C56_needed_cells",
    "C56_read"
   ],
   "note": "on every consistent mesh, for offsets up to half a block"
  },
  {
   "property": "C57",
   "status": "partial",
   "theorems": [
    "C57_refuted",
    "C57_rejected_partial"
   ],
   "note": "refuted: the assertion accepts ghost counts that fit along one of x and y only; larger along both is rejected"
  },
  {
   "property": "C58",
   "status": "partial",
   "theorems": [
    "C58_attributes_partial",
    "C58_refuted"
   ],
   "note": "sound whenever no call fails; refuted: creating an attribute after deleting one throws; complete without deletions"
  },
  {
   "property": "C59",
   "status": "partial",
   "theorems": [
    "C59_refuted",
    "C59_new_fields_partial"
   ],
   "note": "proved when a field exists or the mesh is unchanged; refuted when all fields were deleted and the mesh changed"
  },
  {
   "property": "C60",
   "status": "partial",
   "theorems": [
    "C60_accessor_partial",
    "C60_refuted"
   ],
   "note": "proved for distinct identifiers; duplicates are not rejected (refuted)"
  },
  {
   "property": "C61",
   "status": "partial",
   "theorems": [
    "C61_disabled_partial",
    "C61_refuted",
    "C61_refuted_run"
   ],
   "note": "Proved for real intervals and negative frequencies (C61_disabled_partial). Refuted for frequency 0: integer division by zero in the constructor, even for the disabled trigger (C61_refuted, C61_refuted_run)."
  },
  {
   "property": "C62",
   "status": "proved",
   "theorems": [
    "C62_cycles"
   ],
   "note": "Iterations are unbounded integers in the model (int in the code)."
  },
  {
   "property": "C63",
   "status": "partial",
   "theorems": [
    "C63_limit",
    "C63_defined_partial",
    "C63_empty_aborts",
    "C63_refuted"
   ],
   "note": "The value is positive, allowed and largest (C63_limit, exact arithmetic); defined when every process has something to reduce (C63_defined_partial). Refuted in general: a process without particles aborts the run (C63_empty_aborts, C63_refuted). The rates themselves are inputs of the model."
  },
  {
   "property": "C64",
   "status": "proved",
   "theorems": [
    "C64_malformed"
   ],
   "note": "Bad line of at most 199 characters, not starting with a byte order mark; any text before (ending with a newline) and after."
  },
  {
   "property": "C65",
   "status": "partial",
   "theorems": [
    "C65_int",
    "C65_vector",
    "C65_int_vector",
    "C65_default",
    "C65_string_bool",
    "C65_refuted_vector"
   ],
   "note": "Proved for strings, booleans, integers in range, enumerators, and vectors whose elements print without comma, the last one non-empty (C65_default with C65_int, C65_vector, C65_int_vector, C65_string_bool, C46_enum). Refuted for vectors ending with an empty string (C65_refuted_vector: the query aborts). Floating point values are not modelled."
  },
  {
   "property": "C66",
   "status": "proved",
   "theorems": [
    "C66_ghost_layer"
   ],
   "note": ""
  },
  {
   "property": "C67",
   "status": "proved",
   "theorems": [
    "C67_uniform"
   ],
   "note": ""
  },
  {
   "property": "C68",
   "status": "partial",
   "theorems": [
    "C68_partition_partial"
   ],
   "note": "Missing: the well-balanced option and non-periodic domains."
  },
  {
   "property": "C69",
   "status": "partial",
   "theorems": [
    "C69_scheme_partial"
   ],
   "note": "C69_scheme_partial: periodic domains, without the well-balanced option, gravity field None. Missing: boundaries of the domain (their values come from user functions), the well-balanced option (C39_refuted_well_balanced), the gravity correction applied afterwards (C51)."
  },
  {
   "property": "C70",
   "status": "proved",
   "theorems": [
    "C70_waves",
    "C70_supersonic",
    "C70_contact",
    "C70_mirror"
   ],
   "note": "Exact rationals; the square root is any function with 0 < sq x and x <= sq x * sq x for positive x. States above the density and pressure floors, where the floors do nothing."
  },
  {
   "property": "C71",
   "status": "partial",
   "theorems": [
    "C71_particles_partial",
    "C71_refuted_many",
    "C71_attributes_partial",
    "C71_refuted_attributes"
   ],
   "note": "Positions: proved when particles times ranks is below 2^32; refuted beyond (32-bit product of particle count and rank). Attributes: proved when all writing ranks hold equally many particles; refuted otherwise (ranks create datasets of different shapes)."
  },
  {
   "property": "C72",
   "status": "proved",
   "theorems": [
    "C72_clean",
    "C72_not_negative"
   ],
   "note": ""
  },
  {
   "property": "C73",
   "status": "partial",
   "theorems": [
    "C73_cubic_partial",
    "C73_refuted"
   ],
   "note": "Exactness for cubics proved; refuted: without convergence the warning reads one element past the array. No error bound for other integrands."
  },
  {
   "property": "C74",
   "status": "partial",
   "theorems": [
    "C74_cell",
    "C74_centre",
    "C74_refuted_plane"
   ],
   "note": "C74_cell in general. The round trip through the centre needs the box of a two-dimensional run to start at 0 along the third axis (C74_centre); refuted otherwise (C74_refuted_plane)."
  },
  {
   "property": "C75",
   "status": "partial",
   "theorems": [
    "C75_mass_partial",
    "C75_refuted"
   ],
   "note": "Proved in three dimensions; refuted in two dimensions: the thickness of a cell depends on its level, so the deposited mass does (C75_refuted)."
  },
  {
   "property": "C76",
   "status": "partial",
   "theorems": [
    "C76_cloud_partial",
    "C76_bounds_partial",
    "C76_nearest",
    "C76_motion_partial",
    "C76_refuted"
   ],
   "note": "Proved in three dimensions away from non-periodic boundaries and from smaller cells across an edge or a corner; refuted there (a uniform field is underestimated, C76_refuted). Nearest-cell scheme in any dimension (C76_nearest). Motion for displacements above one period downward (C76_motion_partial, C52_refuted_large_step)."
  },
  {
   "property": "C77",
   "status": "proved",
   "theorems": [
    "C77_poisson"
   ],
   "note": "Exact rational arithmetic. The ghost values of the initial potential and density are those of their owners, as in the time loop."
  },
  {
   "property": "C78",
   "status": "proved",
   "theorems": [
    "C78_matrix_exists",
    "C78_symmetric",
    "C78_positive",
    "C78_conservative",
    "C78_unique"
   ],
   "note": "Stated for any function A that the modelled matrix product computes (is_matrix)."
  },
  {
   "property": "C79",
   "status": "proved",
   "theorems": [
    "C79_partition"
   ],
   "note": "Exact rational arithmetic: sums over ranks are reassociated."
  },
  {
   "property": "C80",
   "status": "partial",
   "theorems": [
    "C80_no_net_force_partial",
    "C80_refuted_levels"
   ],
   "note": "Proved on meshes of a single level (C80_no_net_force_partial); refuted where cells of two sizes meet, even for a positive density (C80_refuted_levels)."
  },
  {
   "property": "C81",
   "status": "partial",
   "theorems": [
    "C81_snapshot_partial",
    "C81_refuted_large",
    "C81_particles"
   ],
   "note": "Proved for every reachable mesh, box, field and order of the ranks when the 32-bit products of the code do not wrap (cells*corners and octants*nodes of each rank below 2^32). Refuted without the bound: with 2^29 cells on a rank the connectivity stays zero. The particle part is proved without restriction. Reals are exact; the XML text of a snapshot is not modelled."
  },
  {
   "property": "C82",
   "status": "partial",
   "theorems": [
    "C82_series_partial",
    "C82_refuted_restart",
    "C82_refuted_every"
   ],
   "note": "Proved within a run, for every content of the disk before. Refuted for restarted runs: the first output of a run truncates the file, always losing the earlier entries."
  },
  {
   "property": "C83",
   "status": "partial",
   "theorems": [
    "C83_no_more",
    "C83_fine_enough_partial",
    "C83_independent",
    "C83_total",
    "C83_sod_partial",
    "C83_refuted"
   ],
   "note": "Completion, balanced ranks, minimality and independence of processes and orders proved for every formula (minimality and independence when no rank of the result has 2^32 cells). Fine enough: proved for formulas that ask for a cell only if they ask for the twice larger cell around it, and so for the shock tube; refuted for formulas in general (an octant created for balance in the last round is never asked)."
  },
  {
   "property": "C84",
   "status": "partial",
   "theorems": [
    "C84_values_partial",
    "C84_refuted_large"
   ],
   "note": "Proved when the rank has fewer than 2^32 cells; refuted beyond (the loop makes no call at 2^32 cells)."
  },
  {
   "property": "C85",
   "status": "partial",
   "theorems": [
    "C85_scheme_partial",
    "C85_conservation_partial",
    "C85_uniform_partial",
    "C85_partition_partial",
    "C85_positive_partial"
   ],
   "note": "Proved for periodic meshes, blocks of an even number of at least 4 cells and without the well-balanced option (refuted for C39 with it): equality with the Heun step, conservation without repairs, uniform flow, independence of the partition, positivity. Other boundary conditions are missing."
  },
  {
   "property": "C86",
   "status": "partial",
   "theorems": [
    "C86_scheme_partial",
    "C86_conservation_partial",
    "C86_conservation_one_size_partial",
    "C86_scheme_one_size_partial",
    "C86_uniform_partial",
    "C86_extremes_partial",
    "C86_partition_partial",
    "C86_conservation_refuted"
   ],
   "note": "Proved for periodic meshes and blocks of an even number of at least 4 cells: the scheme (each cell with the conductivity it really takes), conservation for a constant conductivity on any mesh and for any conductivity on meshes of one cell size, where the scheme has the mean conductivity, gas at one temperature, hottest and coldest cells, partition. Conservation is refuted for a conductivity that depends on the position where two cell sizes meet. Other boundary conditions are missing."
  },
  {
   "property": "C87",
   "status": "partial",
   "theorems": [
    "C87_scheme_partial",
    "C87_scheme_3d_partial",
    "C87_conservation_one_size_partial",
    "C87_mass_partial",
    "C87_uniform_partial",
    "C87_partition_partial",
    "C87_conservation_refuted",
    "C87_scheme_refuted"
   ],
   "note": "Proved for periodic meshes and blocks of an even number of at least 4 cells: the scheme in 3D, the scheme in 2D up to the factor depth, conservation on meshes of one cell size, mass, gas moving as a whole, partition. The scheme is refuted in 2D on refined cells, conservation is refuted where two cell sizes meet. Other boundary conditions are missing."
  },
  {
   "property": "C88",
   "status": "partial",
   "theorems": [
    "C88_distribute_partial",
    "C88_found_partial",
    "C88_refuted_non_cubic",
    "C88_refuted_side",
    "C88_refuted_plane"
   ],
   "note": "Proved for cubic domains, all processes and schedules; with assertions compiled in, for positions strictly inside of the box (in 2D, in the plane of its lower side). Refuted for domains that are not cubes, and with assertions for positions on a lower side (C88_refuted_side) or off the plane in 2D (C88_refuted_plane)."
  },
  {
   "property": "C89",
   "status": "partial",
   "theorems": [
    "C89_grid_partial",
    "C89_mass_partial",
    "C89_still_partial",
    "C89_refuted_large",
    "C89_refuted_plane"
   ],
   "note": "Proved in 3D on cubic domains for fewer than 2^32 particles and displacements of at most one period downward (with assertions compiled in: not exactly onto a side). Refuted for larger grids (C89_refuted_large) and in 2D (C89_refuted_plane)."
  },
  {
   "property": "C90",
   "status": "partial",
   "theorems": [
    "C90_scheme_partial",
    "C90_conservation_one_size_partial",
    "C90_uniform_partial",
    "C90_partition_partial",
    "C90_positive_partial",
    "C90_refuted_levels"
   ],
   "note": "Proved on periodic meshes with blocks of an even number (at least 4) of cells: the scheme, uniform gas, independence of the partition, positive densities after the repair, and conservation on meshes of cells of one size. Conservation across levels is refuted (C90_refuted_levels): each side of a face between two levels uses its own flux. MHD states and other boundary conditions of this update are not covered."
  },
  {
   "property": "C91",
   "status": "partial",
   "theorems": [
    "C91_cells",
    "C91_sides",
    "C91_energy_partial",
    "C91_refuted_one_row"
   ],
   "note": "The change of every cell and the energy through the lower side are proved for all meshes; the energy through the upper side and the conservation of the total energy when there are at least two rows of cells at the coarsest level. With a single row the energy only decreases (C91_refuted_one_row)."
  },
  {
   "property": "C92",
   "status": "proved",
   "theorems": [
    "C92_mass",
    "C92_downflow",
    "C92_gradient",
    "C92_partition"
   ],
   "note": ""
  },
  {
   "property": "C93",
   "status": "partial",
   "theorems": [
    "C93_refines_partial",
    "C93_marks_partial",
    "C93_refuted_never_coarsens",
    "C93_refuted_uniform"
   ],
   "note": "Refuted as stated: the array of markers starts at 0 (the marker that leaves the octant), so no octant is ever marked for coarsening (C93_refuted_never_coarsens for all inputs, C93_refuted_uniform against the full statement). C93_refines_partial gives the markers the code computes on periodic meshes with even blocks of at least 4 cells, least density above 0: the octants to refine are the right ones."
  },
  {
   "property": "C94",
   "status": "partial",
   "theorems": [
    "C94_limit",
    "C94_bounds_partial",
    "C94_one_size_partial",
    "C94_refuted",
    "C94_refuted_density"
   ],
   "note": "The value of the limiter is proved (C94_limit). The bounds are refuted as stated: in two dimensions a Courant number below 1/2 is not small enough (C94_refuted), and the limit leaves out the density and the adiabatic index (C94_refuted_density). C94_bounds_partial gives the condition on the step under which bounds are kept on every periodic mesh and for every conductivity; C94_one_size_partial derives it from the limiter when 2 * dimensions * cfl * (gamma - 1) is at most the smallest density and all cells have one size."
  },
  {
   "property": "C95",
   "status": "partial",
   "theorems": [
    "C95_follows",
    "C95_all",
    "C95_stays_partial",
    "C95_refuted_leaves",
    "C95_refuted_next"
   ],
   "note": "The displacement is proved for every tracer and all lists of tracers (C95_follows, C95_all). Staying in the domain is proved for tracers outside of the cells along the sides (C95_stays_partial) and refuted in periodic domains (C95_refuted_leaves): the position is not brought back, and the next update fails (C95_refuted_next)."
  },
  {
   "property": "C96",
   "status": "partial",
   "theorems": [
    "C96_formula",
    "C96_attraction_partial",
    "C96_refuted_plane"
   ],
   "note": "The field of every formula that depends on the position is proved (C96_formula). The attraction of the point mass is proved in three dimensions and, in two, for a mass with point_mass_z = 0, where the softened distance is rational (C96_attraction_partial). Refuted in two dimensions in general (C96_refuted_plane): point_mass_z, 0.5 by default, counts in the distance. Formulas of the cell size are missing."
  },
  {
   "property": "C97",
   "status": "partial",
   "theorems": [
    "C97_forward_partial",
    "C97_close_partial",
    "C97_refuted"
   ],
   "note": "Proved for particles whose velocity has no negative component (C97_forward_partial), and for all particles component by component up to the velocity 1e-10 (C97_close_partial), for any square root that is exact on squares and never below the true one. Refuted as stated (C97_refuted): 1e-10 is added to signed components, which shortens negative velocities and hides the velocity (-1e-10, -1e-10)."
  },
  {
   "property": "C98",
   "status": "partial",
   "theorems": [
    "C98_same_order",
    "C98_detected_partial",
    "C98_file",
    "C98_file_detected_partial",
    "C98_refuted_negative",
    "C98_palindrome_misread",
    "C98_refuted_palindrome",
    "C98_header_partial",
    "C98_header_exchanged",
    "C98_refuted_header"
   ],
   "note": "Proved when the flag of the reader already fits the file (C98_same_order, and C98_file for sequences), and otherwise when the last byte of the size is below 128 and the size is not the same in both byte orders (C98_detected_partial; C98_file_detected_partial for the records after it). Refuted elsewhere: a size whose last byte is at least 128 looks negative and the reader stops (C98_refuted_negative); a size equal in both orders gives values in the wrong order of bytes (C98_palindrome_misread, C98_refuted_palindrome). Headers: proved for files with the least significant byte first (C98_header_partial), refuted for the others, whose fields come out in the opposite order (C98_header_exchanged, C98_refuted_header)."
  },
  {
   "property": "C99",
   "status": "partial",
   "theorems": [
    "C99_exact_partial",
    "C99_other_lengths_fail",
    "C99_refuted_missing",
    "C99_refuted_more"
   ],
   "note": "Proved on cubic domains when each list has exactly npart values and positions are inside of the box (C99_exact_partial). Refuted otherwise: with any other length of any list the copy leaves the vector or the array (C99_other_lengths_fail for all inputs; C99_refuted_missing, C99_refuted_more against the statement)."
  },
  {
   "property": "C100",
   "status": "partial",
   "theorems": [
    "C100_largest_partial",
    "C100_answers_partial",
    "C100_waves_partial",
    "C100_after_partial",
    "C100_refuted"
   ],
   "note": "Proved when every cell has a positive density and no negative pressure (C100_largest_partial, C100_answers_partial, C100_waves_partial), and with invalid cells for the cells of a process visited after its last invalid cell (C100_after_partial). Refuted otherwise: FMAX with a NaN forgets the maximum of all cells visited before, so one cell of negative pressure hides a faster cell and the step breaks its Courant condition (C100_refuted). The MHD branch and the parallel backends of Kokkos are not modelled."
  },
  {
   "property": "C101",
   "status": "proved",
   "theorems": [
    "C101_last_value",
    "C101_visits",
    "C101_types_apart"
   ],
   "note": "For the two types of ScalarSimulationData, any values. References kept by the caller after other calls are not modelled."
  }
 ]
}