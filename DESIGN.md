# Formal model of Dyablo's AMR core: design

The model is written in Rocq (Coq 8.16.1), in `/verif/rocq/theories`. `/repo` is
only read as text; nothing is compiled or executed from it.

## Method

* `*Model.v` files hold small total executable functions, one per C++ function,
  each with a comment giving the file and lines it models and every simplification.
* `*Spec.v` files hold the vocabulary used in the property statements: geometry of
  octants, touching, tiling, owner rank, ... They do not refer to the model.
* `*Proofs.v` files hold lemmas.
* `*Props.v` files hold only property theorems (`exact lemma`), `Print Assumptions`
  and examples showing that the hypotheses are met by concrete non-trivial cases.
* Undefined behaviour, failed release assertions and exhausted loops are distinct
  outcomes (`option`/error values), never a default value.
* When the unchanged code violates a property, the theorem is `..._refuted`, with a
  concrete witness, and is listed under "Findings".

Parallelism: an MPI program is modelled as one list with the state of every rank;
collectives are functions on that list (SPMD lockstep). Kokkos `parallel_for` over
disjoint writes is a `map`; `parallel_scan` an exclusive prefix sum; atomics and hash
tables are modelled by quantifying over every execution or iteration order.

## Plan per property

| id | what is modelled | how it is proved |
|----|------------------|------------------|
| C01 | bit operations of `morton_utils.h`, literal masks, 64-bit wrap | symbolic 64-bit evaluation proved sound by reflection |
| C02 | `compute_morton_key`, `shift_level` | bit-level lemmas; key interval = set of descendants |
| C03 | `private_init`, both branches | counting argument on the Morton scan |
| C04 | `adapt`, `loadBalance` on the list of ranks | invariant over all operation histories |
| C05, C06, C08, C09 | marker loop of `adapt` | least fixpoint of a monotone operator; termination measure |
| C07 | the same with ghosts per rank, stale during inner loops | chaotic iteration = least fixpoint |
| C10 | `set_markers` + `adapt` | invariant |
| C11, C12 | `loadBalance`, `lower_bound_morton`, all-to-all exchange | the truncated pivots are leaf keys; list splitting |
| C13 | `discover_ghosts` including the restart loop | geometry of touching octants, key intervals |
| C14 | `find_rank` | loop invariant of the binary search |
| C15, C16 | `findNeighbors`, `isBoundary` | case analysis on level difference in a balanced tiling |
| C17 | `LightOctree_hashmap_precompute` | prefix sums, index bijection |
| C18 | `getiOctFromPos`, `getDomainFromPos` | descent over levels; key intervals; refutation for non-cubic coarse grids |
| C19, C20, C21 | `ViewCommunicator` | list reasoning on all-to-all; permutation for atomics |
| C22 | face masks of partial blocks | counting/inclusion proof for arbitrary block sizes |
| C56 | face masks recorded by `discover_ghosts`, exchange of partial blocks, cell queries | per-axis arithmetic: the octant found is adjacent on the side of the cell; composition with C22, C25 |
| C57 | release assertion of the partial-block communicator | refutation and the part that holds |
| C23, C50 | index decoding, group iteration | div/mod bijections |
| C24, C25, C26, C43 | `CellIndex` operations, boundary conditions | integer geometry |
| C27, C28 | `CellIndexRemapper`, `MapUserData_mean` over exact rationals | sums over tilings |
| C29, C30, C59, C60 | `UserData_fields` | refinement of a finite map of arrays; refutation for C30 |
| C58 | `UserData_particles` attributes | the same refinement, particles as cells of one block |
| C31, C32, C33, C61, C62, C63 | `Interval_trigger`, `IterationHandler`, `run` over exact rationals | invariant over all step sequences |
| C34, C35, C64, C65 | `ConfigMap`, `ini.cpp` over lists of characters | parser/printer round trip; induction on lines, histories of queries |
| C36, C37, C71 | checkpoint writer, restart reader (RestartModel) | level induction: after the round for a level the new mesh is the saved one cut at that level; prefix sum offsets. Partial: below 2^32 octants; particles times ranks below 2^32; attributes only with equal counts, refuted otherwise |
| C38 | `mark_cells` | order independence of max |
| C39-C42, C51, C66-C70, C72 | hydro kernels over exact rationals, arbitrary flux function | classification of faces on the grid of cells, double sum over pairs of neighbours, algebra; waves of the Riemann solver from the jump conditions |
| C44 | epochs and cached tree (CacheModel), the construction being collective | invariant over histories; refuted for a rank that asks alone |
| C45 | global index prefix sums | part of the mesh invariant |
| C46 | factory, named enums | finite map laws |
| C47 | serial collectives | refutation (one element too few is copied) |
| C49, C73 | expansion tables, interpolation, Romberg integration (CosmoModel; square root a parameter) | invariant of the binary search; algebra. Refuted at the first node and without convergence |
| C48, C75, C76 | CIC and NGP deposition, acceleration, motion (ParticleModel) | per-axis shares of the cloud sum to one; neighbours from C25; refuted next to finer cells across edges and in two dimensions |
| C74 | getCellFromPos, getCellCenter (ParticleModel) | C18 plus the index arithmetic inside the octant |
| C77, C79 | conjugate gradient gravity solver (GravityModel) | the kernels equal the finite volume operator on cells; theory of preconditioned conjugate gradients with residuals orthogonal, hence at most as many steps as cells, proved from scratch (CGTheory) |
| C78 | matrix product | weighted graph of faces, sum of squares, connectivity of the mesh by descent |
| C80 | acceleration kernel | discrete integration by parts on one level; refuted between levels |
| C81 | tables of the HDF5 output (OutputModel) | global numbering (C45) and index arithmetic of rows; refuted when a 32-bit product wraps |
| C82 | main XDMF file as a text | induction on the snapshots; refuted across runs |
| C83 | rounds of marking, adaptation and load balance (AnalyticModel) | least legal change (C06) round by round, any fine enough mesh gives a legal change; refuted for formulas that ask late |
| C84 | the loop that fills the fields | each slot written with its own value; refuted at 2^32 cells |
| C86 | thermal conduction of a block over all ranks (ParabolicModel) | each cell equals the sum over its real neighbours (as C69); conservation by pairing the two sides of each face, sign of the terms, permutation of the leaves; refuted on a two-level mesh with a conductivity that varies |
| C88 | `distribute` over all ranks (ParticleGridModel, on the communicator of C21 and the ownership lookup of C18) | every particle goes to the rank the lookup names, which owns its octant on cubic domains; the exchange keeps every row once; refuted by runs on concrete meshes |
| C89 | `InitialConditions_particle_grid::init` over all ranks (ParticleGridModel) | numbering of the grid by induction on its sides, shares of the ranks concatenate to it, the cell of C74, wrapping of C52, then C88 twice; refuted by runs |
| C90 | `HydroUpdate_hancock` over all ranks (HancockModel) | the block with ghosts holds the gas of the positions beside the cell (C39, C86), each stage rewritten to its formula; conservation by the exchange of the two sides of a face; refuted by a run on a mesh of two levels |
| C91 | `CoolingUpdate_FF` over all ranks (CoolingModel) | comparison of the centre of a cell with the sides in half cells; the areas of the cells along a side add up to the side by counting the columns of the finest grid; refuted on a box of one row |
| C92 | criteria on mass, downflow and contrast through the helper (CriterionModel) | the marker of an octant is the largest of its cells (C38); the cells reached through a face are those that touch it in space (FaceTouch, both dimensions); a maximum depends only on the set of values |
| C93 | `RefineCondition_second_derivative_error` (CriterionModel) | the block with ghosts holds the gas of the positions beside the cell (C39); refuted for every input by an invariant on the array of markers |
| C94 | limiter of the parabolic terms (LimiterModel) with the conduction of C86 | the rate of a cell is the largest quotient over axes, the reduction is that of C63; an explicit step is a convex combination of temperatures when the conductance of the cell is small enough; refuted on a uniform mesh with one hot cell |
| C95 | `ParticleUpdate_tracers_move` (TracerModel) | the cell found contains the tracer (C74), its gas gives the displacement; a displacement shorter than a cell from an inner cell stays in the box; refuted with a tracer in the last cell of a periodic domain |
| C96 | gravity fields of a formula, point mass (PointMassModel) | the centre of a cell is its middle in space (ParabolicProofs), each process writes its cells (RKProofs); the square root is any function exact on squares; refuted in 2D with the default height of the mass |
| C97 | `Compute_dt_particle_velocity` (ParticleStepModel) | the cell found contains the particle (C74), the reduction is that of C63, squares of sums; refuted by a run with two particles |
| C98 | `FortranBinaryReader::read_record`, grafic header (FortranModel) | the format is a relation between values and bytes; reversal of lists of bytes, arithmetic on the four bytes of a size; refuted with small records |
| C99 | `InitialConditions_simple_particles` over all ranks (SimpleParticlesModel) | the lists are copied when their lengths agree, then C88; refuted by the lengths |
| C100 | `Compute_dt_hydro` without magnetic field, with NaN (CourantModel) | the rate of a cell is the sum of the spec, the fold of FMAX over numbers is their maximum, minimum over processes as in C63; refuted by a run with one cell of negative pressure |
| C101 | `MultiTypeMap` with int and real_t (ScalarModel) | a std::map is an ordered list; lookup after assignment, induction on the history |
| C87 | viscous stress terms (ParabolicModel) | ring identity between the stencil and the stress tensor; conservation by re-indexing over the cell above each face; refuted on a two-level mesh |
| C85 | two-stage update over all ranks, with the exchange between (RKModel) | each stage is the scheme of C69; conservation, uniform flow and partition follow from C39, C67, C68; positivity by convexity of the kinetic energy |
| C52, C53, C54 | periodic wrap, constructor checks, boundary flag | partial theorems and refutations |

## Not expressible here

Floating-point rounding (exact arithmetic is used), performance, GPU memory spaces,
the MPI library and HDF5 library themselves, and the Kokkos runtime. These are assumed
to do what their specification says.

## Findings (properties the code violates, each with a `_refuted` theorem)

* C04, C06: `level_min = 0` wraps an unsigned level in the coarsening test of `adapt`.
* C04: `adapt` reads the first octant of a rank that has just lost all its octants.
* C13: with more ranks than coarse cells rank 0 is empty and ghosts are wrong after `adapt`.
* C18: `LightOctree_hashmap` computes the first key of a rank with 2^level cells per axis
  where the storage uses the coarse grid size; the owner query is wrong for non-cubic grids.
* C23: the number of cells of a process is a 32-bit product; with 2^32 cells none is visited.
* C25: `getNeighbor_ghost` with a diagonal offset that leaves the block along one axis only
  may return a smaller cell that does not touch the cell that asks.
* C29: `move_field(x, x)` deletes the field.
* C30: `exchange_loadbalance` copies the first slots as they are while the names are
  renumbered in alphabetical order. After one step of the time loop (`rho_next` renamed
  `rho`) without an AMR cycle, load balancing brings back the previous state.
* C58: creating a particle attribute after deleting another one throws.
* C59: fields created after all fields were deleted keep the size of the old mesh.
* C60: the duplicate check of `FieldAccessor` compares two equal counts and never fires.
* C43: `getBoundaryValue` uses the condition of the lower side for the upper side and vice
  versa; a corner index that leaves the block but not the domain along an axis is mirrored
  and conditioned along that axis too.
* C55: `getNeighbor_ghost` of a block-local array tests the range the wrong way round.
* C57: the release assertion of the partial-block communicator uses `||` where `&&` is needed:
  blocks of 2x4 cells with 3 ghosts are accepted and the tables are written out of bounds.
* C47: the serial collectives copy one element too few.
* C52: `fmod` truncates toward zero; a particle moved by more than one period below the
  domain stays outside.
* C53: `a <= (dim==3) ? b : 1` parses as `(a <= (dim==3)) ? b : 1`, so the third coarse size
  is never rejected; sizes of 0 are accepted; the octant count is a 32-bit product.
* C54: in 2D every octant is flagged as a boundary octant (its third coordinate is 0).
* C28: when a coarsened family is split over two processes `MapUserData_mean::remap_aux`
  exchanges ghosts and calls itself, but the count that triggers the recursion does not
  depend on the data: the recursion never ends.
* C31: `Interval_trigger<int>` uses integer division, so from a negative start iteration the trigger is
  misaligned (`C31_refuted_negative`).
* C32: `run` makes a step before testing the stop criterion. A run started at `nstepmax` makes one more
  iteration (`C32_refuted_limit`); one started past `tEnd` gets a negative time step and goes back in time
  (`C32_refuted_backward`).
* C33: `aexp` is refreshed after the output trigger has been evaluated, so snapshots sliced in `aexp` come one
  iteration late (`C33_refuted_aexp`).
* C61: a frequency of 0 (rather than -1) divides by zero in the constructor of the trigger (`C61_refuted`).
* C63: the particle time step is a maximum over no element on a process without particles; `dt` is then
  negative and the release assertion stops the run (`C63_empty_aborts`).
* C34: a line of more than 199 characters of the .ini file is cut; its end is read as another line (continuation, assignment or error). Section names are cut after 49 characters, so variables of such a section cannot be found (`C34_refuted_long`, `C34_refuted_section`). A continuation line replaces the value of its variable instead of extending it.
* C35: a value starting with `;` (file line `x=;q`) is written as `x = ;q` and read back as empty (`C35_refuted_semicolon`); padding to 20 columns and the `; Unused` marks can make a written line longer than 199 characters, so that last.ini is rejected or changed (`C35_refuted_long`).
* C46: an enumeration variable accepts any number, also one that is no enumerator, e.g. boundary type 17 (`C46_refuted_enum_number`).
* C65: the default {""} of a vector of strings makes the query abort (`C65_refuted_vector`).
* C39: with `well_balanced=true` the two sides of a coarse-fine face use different fluxes and mass is not conserved (`C39_refuted_well_balanced`). `poutL`/`poutR` of `euler_update` are not initialised on the side of smaller neighbours (modelled as an arbitrary value, `h_junk`).
* C71: the number of particles a rank reads at restart is computed with 32-bit products
  (InitialConditions_restart.cpp:310): 2^30 particles on 8 ranks give ranks 3 and 7 a count of
  3892314112. Particle attributes are written as (particle, 1) arrays whose last dimension is
  taken for the distributed one (IOManager_checkpoint.cpp:70-71, HDF5ViewWriter.h:101): ranks
  with different numbers of particles create datasets of different shapes.
* C36: the reader keeps the number of octants of the whole file in 32 bits
  (InitialConditions_restart.cpp:211), so meshes of 2^32 octants or more cannot be restarted.
* C49: converting the first node of a table reads the element before it (Cosmo.h:17-19, index
  i-1 with i = 0). Every cosmological run does so at its start (DyabloTimeLoop.h:281 converts
  `a_start`, which is the first node). The interpolation weight is then 1, so that the value
  usually comes out right whatever was read, but the access is out of bounds.
* C73: when the integration does not converge, the text of the warning reads `Rc[max_steps]`, one
  past the array (Cosmo.h:64); the value returned does not depend on it.
* For runs that stop on `aexp`, DyabloTimeLoop.h:129-130 requires `cosmology/omegam` and `omegav` while Cosmo.h:93-94 reads
  `omega_m` and `omega_v` (with defaults 0.3 and 0.7): a run that sets only one pair uses two
  different universes or stops. Not formalised.
* C44: `getLightOctree` is collective when the mesh has changed (MPI_Allgather in
  LightOctree_hashmap.h:64) although nothing in its documentation says so: a rank that calls it
  alone waits forever.
* C48: next to smaller cells across an edge or a corner, the cloud-in-cell deposition loses mass:
  each smaller cell gets the share of one cell out of the four that touch a face, but only two
  touch an edge and one a corner. In `C48_refuted` a particle deposits 125/128 of its mass.
* C48: in two dimensions the deposition also visits the cells above and below the plane, which do
  not exist.
* C75: in two dimensions the kernel divides by a volume whose thickness is halved at each level,
  so the surface density added by a particle doubles from one level to the next.
* C76: for the same reason as C48 the acceleration in a uniform field is too small (125/128).
* C74: in two dimensions the centre of a cell has third coordinate 0 whatever `zmin`; when the
  box starts below 0, looking up the cell at this position gives an index outside the block.
* C80: where cells of two sizes meet the slope that accelerates a cell is not the one of the
  Poisson matrix, and the gas pushes itself (`C80_refuted_levels`).
* C77: with a uniform density on a periodic domain the right-hand side is zero, the relative residual
  divides by zero and the loop runs until the residual is exactly zero, whatever `CG_eps`. The model
  shows that it ends in exact arithmetic; in floating point nothing guarantees it. The solver reads
  only the lower boundary type of each axis and applies it on both sides.
* C81: `local_num_cells*nbNodesPerCell` and `nbOcts_local*nbNodesPerOct` are 32-bit products. With 2^29
  cells (2^30 in 2D) on a rank the kernel that fills the connectivity runs over no index and every element is drawn as
  the point of node 0 (`C81_refuted_large`). Names in `output/write_variables` are not trimmed, so
  `"rho, u"` asks for a field called `" u"`; names of particle attributes are trimmed.
* C82: the main file of the time series is opened with "w" at the first output of every run, so a restart with the same
  prefix removes the earlier snapshots from the list (`C82_refuted_every`).
* C83: the initial mesh is marked once per level. An octant that the last rounds create for balance only is not asked, so a
  formula that asks to refine a small cell but not the larger one around it leaves cells too coarse (`C83_refuted`). The
  shock tube formula cannot do that (`C83_sod_partial`). In two dimensions the size given to the formula along z is the
  height of the box, halved at each level.
* C84: with 2^32 cells on a rank the initial condition writes nothing (`C84_refuted_large`).
* C86: across a face between a big and a small cell, `compute_rhs` of the small cell takes the conductivity at the centre of a
  cell of its own size (`getCellCenter(iCell_Ugroup + offset)`), that of the big one at the centre of the small one. With a
  conductivity that depends on the position the two fluxes differ and energy appears or vanishes (`C86_conservation_refuted`).
* C87: `ParabolicTerm_viscosity` multiplies the fluxes along x and y by `size[IZ]` but divides by a volume without it in 2D. The
  size along z of a 2D cell halves with every level, so a refined cell feels a weaker viscosity (`C87_scheme_refuted`).
  Where two cell sizes meet, momentum is not kept even apart from that factor: each side builds its own stress
  (`C87_conservation_refuted`).
* C88: `getDomainFromPos` asserts `0 < pos` along the axes, while `get_distribute_communicator` accepts 0 and periodic wrapping
  produces it: with assertions a particle on a lower side of the box stops the run (`C88_refuted_side`). In 2D it asserts
  `pos[IZ] == 0`, so particles must lie in the plane `zmin` (`C88_refuted_plane`). On domains that are not cubes particles go to
  processes that do not own their octant (`C88_refuted_non_cubic`, the cause is that of C18).
* C89: `nx*ny*nz` is a product of `uint32_t` stored in a `uint64_t`: a grid of 2^32 particles has no particle, one of 2048^3 neither
  (`C89_refuted_large`). In 2D the particles are put at `zmin + Lz/2`: with assertions the run stops, without them `getCellFromPos`
  returns an index outside of the block on refined octants (`C89_refuted_plane`).
* C90: across a face between two levels each cell of the Hancock update uses a flux computed on the grid of its own level
  (the note in `HydroUpdate_hancock.cpp:177` says so): even the total mass changes in one step (`C90_refuted_levels`).
* C91: `CoolingUpdate_FF` tests the two sides with `else if`: when one row of cells touches both sides it is cooled and not
  heated, so the total energy decreases, contrary to the comment of the class (`C91_refuted_one_row`). The mode `layer` does nothing.
* C93: `RefineCondition_second_derivative_error` creates the array of markers with a plain `Kokkos::View`, which holds 0, instead of filling it with the marker for coarsening as `RefineCondition_helper.h` does. Its maximum with the markers of the cells is never below 0: with this criterion the mesh is never coarsened (`C93_refuted_never_coarsens`).
* C94: `Compute_dt_parabolic` takes dt = cfl min(dx^2 / kappa) with cfl = 0.5 by default and "a constant factor < 0.5" in the comment. That is the limit of the heat equation in one dimension for a diffusivity kappa. In two and three dimensions the limits are 1/4 and 1/6, and the diffusivity of the update is kappa (gamma - 1) / rho: with one hot cell on a uniform mesh the cell ends colder than everything around it (`C94_refuted` with cfl = 2/5 and diffusivity kappa, `C94_refuted_density` with cfl = 1/4 and a density of 1/4).
* C95: `ParticleUpdate_tracers_move` does not bring positions back into a periodic domain (unlike the
  NGP and CIC moves). A tracer that crosses a side stays outside, and the next update finds no cell
  for it (`C95_refuted_leaves`, `C95_refuted_next`).
* C96: in 2D the centre of a cell has z = 0 but `point_mass_z` is 0.5 by default, and the point mass
  includes the difference in the distance: the force in the plane is that of a mass outside of the
  plane (`C96_refuted_plane`).
* C97: `Compute_dt_particle_velocity` adds `small_v` = 1e-10 to each signed component of the velocity.
  Negative velocities are shortened, so the limit is slightly too long for them, and particles with the velocity
  (-1e-10, -1e-10) give the rate 0 and no limit (`C97_refuted`).
* C98: `read_record` checks the sign of the size before it tries the other byte order: a file of the other
  order whose first record has a size with a last byte of at least 128 (for example 176) is rejected as negative
  (`C98_refuted_negative`). A size that is the same in both orders (65792) is taken in the wrong order
  (`C98_refuted_palindrome`). The grafic header is read as one value of 44 bytes, so swapping the order of bytes reverses the whole structure: nx
  is exchanged with H0, and so on (`C98_header_exchanged`, `C98_refuted_header`).
* C99: `parse_array` of simple_particles copies `max(size of the list, npart)` values where the comment says "at most npart": a shorter or
  absent list is read past its end, a longer one is written past the end of the array (`C99_other_lengths_fail`).
* C100: `Compute_dt_hydro` takes sqrt(p gamma / rho) without any floor (`smallr` and `smallc` are read from the configuration and never used), and reduces with `FMAX(x,y) = (x>y ? x : y)`. A cell with a negative pressure gives NaN, `FMAX(inv_dt, NaN)` is NaN, and `FMAX(NaN, next)` is the next value: the maximum over all cells visited before is forgotten and the assertion dt > 0 does not see it. The step can then be any number of times above the Courant limit of a valid cell (`C100_refuted`: 1/64 for a limit of 1/3232).

## Wrong-program tests

`seeded/LOG.jsonl` has one line per edit of the model made in a scratch copy. The field
`theorems_failed` lists the theorems of every file that no longer compiles.

## What is modelled and what is not

Paths are relative to `/repo/core/src`. Line numbers are in the comments of the definitions.

| model file | code |
|---|---|
| `MortonModel` | `morton_utils.h` (keys of 2D and 3D coordinates) |
| `OctreeModel` | `amr/LightOctree_storage.h`, `amr/LightOctree_hashmap.h` (neighbours), `amr/AMRmesh_hashmap_new.cpp` (constructor, adapt, load balancing, ghosts) |
| `RefineModel` | `refine_condition/RefineCondition_helper.h` |
| `LookupModel` | point queries of `amr/LightOctree_hashmap.h`, boundary flag, constructor checks, periodic wrap of particles, serial collectives |
| `CommModel` | `mpi/ViewCommunicator.{h,cpp}`, `utils/mpi/MpiComm_single.tpp` |
| `FaceMaskModel` | `mpi/GhostCommunicator_partial_blocks.{h,cpp}` |
| `IndexModel` | packed octant indices, `amr/LightOctree_hashmap_precompute.h`, `userdata_utils.h` |
| `CellModel` | `foreach_cell/AMRBlockForeachCell*.h`, `foreach_cell/ForeachCell_utils.h`, `boundary_conditions/BoundaryConditions.h` |
| `FieldModel` | `UserData_fields.h`, `FieldManager.h`, `UserData_particles.h` |
| `RemapModel` | `amr/CellIndexRemapper.h`, `amr/MapUserData_mean.cpp` |
| `TimeModel` | triggers, stop criterion, step and run of `DyabloTimeLoop.h`, reductions of `compute_dt/` |
| `ConfigModel` | `utils/config/inih/ini.cpp`, `utils/config/ConfigMap.h` |
| `HydroModel` | `states/State_hydro.h`, HLLC of `hydro/RiemannSolvers.h`, `hydro/HydroUpdate_utils.h`, `hydro/HydroUpdate_euler.cpp`, `hydro/CopyGhostBlockCellData.h` |
| `CacheModel` | cached tree of `amr/AMRmesh.h`, `amr/AMRmesh.cpp` |
| `ParticleModel` | `getCellFromPos`, `getCellCenter` of `foreach_cell/AMRBlockForeachCell.h`, kernels of `particles/ParticleUpdate_{CIC,NGP}_{density,move}.cpp` |
| `GravityModel` | `gravity/GravitySolver_cg.cpp` |
| `CosmoModel` | `Cosmo.h` (tables, interpolation, integration; not the table file) |
| `RestartModel` | `io/IOManager_checkpoint.cpp`, `utils/io/HDF5ViewWriter.h` (collective writes), `init/InitialConditions_restart.cpp` (HDF5 itself trusted) |
| `OutputModel` | tables and main file of `io/IOManager_hdf5.cpp` |
| `RKModel` | `hydro/HydroUpdate_RK2.cpp` (arrays per rank, exchange between the stages; the update of a cell is that of `HydroModel`) |
| `LimiterModel` | `compute_dt/Compute_dt_parabolic.cpp` (the rates of the cells; the reduction is `TimeModel.kernel_dt`) |
| `TracerModel` | `particles/ParticleUpdate_tracers_move.cpp` (update) |
| `PointMassModel` | `gravity/GravitySolver_analytical.tpp` (update_gravity_field), `gravity/GravitySolver_point_mass.cpp` (value; the square root is a parameter) |
| `ParticleStepModel` | `compute_dt/Compute_dt_particle_velocity.cpp` (compute_dt_aux, compute_dt; the square root is a parameter) |
| `FortranModel` | `utils/io/FortranBinaryReader.h`; the reading of headers in `init/InitialConditions_grafic_fields.cpp`; on a little-endian machine |
| `SimpleParticlesModel` | `init/InitialConditions_simple_particles.cpp` |
| `CourantModel` | `compute_dt/Compute_dt_hydro.cpp` (the hydrodynamic branch; cells visited one after another as by the serial backend of Kokkos; the square root is a parameter, NaN is `None`), `real_type.h` FMAX |
| `ScalarModel` | `utils/misc/MultiTypeMap.h`, `ScalarSimulationData.h` (std::map as an ordered list of entries; the text of the exception and print are left out) |
| `CriterionModel` | `refine_condition/RefineCondition_mass.cpp`, `_downflows.cpp`, `_pseudo_gradient.cpp`, `_second_derivative_error.cpp` (getMarker, mark_cells_aux) |
| `CoolingModel` | `cooling/CoolingUpdate_FF.cpp` (constructor, update_aux) |
| `HancockModel` | `hydro/HydroUpdate_hancock.cpp` (compute_slopes, reconstruct_state, compute_flux, compute_fluxes, update_aux), `hydro/HydroUpdate_utils.h` (compute_source); without MHD states |
| `ParticleGridModel` | `particles/ForeachParticle.h` (get_distribute_communicator, distribute), `UserData_particles.h` (distributeParticles), `init/InitialConditions_particle_grid.cpp` (init; the cosmological defaults of total_mass and dt_perturb are not modelled, they are arguments) |
| `ParabolicModel` | `parabolic/ParabolicUpdate_explicit.cpp`, `parabolic/ParabolicTerm_thermal_conduction.h` (conductivity: any function of the position), `parabolic/ParabolicTerm_viscosity.h` |
| `AnalyticModel` | `init/InitialConditions_analytical.h` on a new mesh, the formula is a parameter; `need_refine` of `InitialConditions_sod.cpp` |
| `RegistryModel` | integer and enum conversions of `ConfigMap.h`, `utils/config/named_enum.h`, `utils/misc/RegisteringFactory.h` |

Not modelled: `legacy/`, `amr/AMRmesh_hashmap.cpp` (older mesh), `amr/AMRmesh_pablo.h`,
the formulas of the initial conditions other than the shock tube, several initial conditions one after the other, `GravitySolver_constant` (no field to write), the HDF5
library, the XML of each snapshot and the VTK writer, timers, and
whatever is not in the table. Everywhere: rounding (exact rationals), machine integers
except where a comment says so, Kokkos memory spaces and the internals of MPI. Kernel
launches are modelled as lists of writes in an arbitrary order.

## Trusted base

* Coq 8.16.1 kernel.
* `Print Assumptions` output of every property theorem (kept current below).
  So far every theorem is closed under the global context (no axioms).
* The reading of the C++ code that is recorded in the comments of the model files.
