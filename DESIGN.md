# Formal model of baderkit (Rocq / Coq 8.16.1)

Source modelled: `/repo/src/baderkit` at the pinned commit.  Nothing is
executed; the models are shallow Gallina transcriptions of the Python and numba
functions, branch by branch.  Every definition cites the file and lines it
transcribes and names the simplifications made.

## Layout

* `properties.jsonl`: the properties, in terms of what a caller can observe.
* `rocq/theories/XModel.v`: definitions of one area of the code.
* `rocq/theories/XSpec.v`, `XProofs.v`, `XTop.v` and similar: independent
  specifications and lemmas.
* `rocq/theories/XProps.v`: the property theorems, named after the property
  (`C05_run` belongs to C05), each followed by `Print Assumptions` and by `Example`s
  with a non-trivial instance.
* `MANIFEST.json`: property, status, theorems, note.  Generated by
  `tools/gen_manifest.py` from the theorem names and `tools/notes.json`.  Status
  `partial` means that the property is refuted (a theorem `..._refuted` gives a
  witness) or proved with something missing (`..._partial`).
* `seeded/LOG.jsonl`: wrong programs tried against the theorems. `lemmas_failed` are the proofs that broke; `theorems_failed` are the property
  theorems that rest on them, by Print Assumptions with the broken proofs replaced by a hole. For edits of GobjModel, VorModel, ViewModel, TsvModel
  and SummModel they were worked out from the lemma names the proofs mention instead.
* The table at the end of this file is generated by `tools/gen_design.py`.

When a claim is true only under a condition, the property states the condition
and the unconditional claim is a property of its own with a refutation.

## Conventions

* Numbers.  Floats are exact rationals `Q` (integers `Z` where the code only
  counts).  Rounding error, NaN, infinities and `fastmath` re-association are not
  modelled.  Square roots are an abstract function `root`, constrained in the
  theorems to what is needed (monotone, rounding upwards, or within an error of the
  real root) and never to an exact root, which does not exist in `Q`.  Division by
  zero is `0` in `Q`; where Python would raise, the model returns an error instead.
* Arrays.  Read-only grids are functions `Z -> Z -> Z -> A` used inside their
  bounds; mutable arrays are lists in C order or maps.  numpy's negative indices
  (`a[-1]` is the last entry) are modelled wherever they can be reached, and an
  index out of range is an error or a no-op as documented at the definition.
* Exceptions are values (`option`, or `Raised` in `outcome`).  `while True` loops
  take fuel and return `Running` when it is used up; the theorems give fuel that
  suffices.
* `prange` loops run in an arbitrary order (`par_loop` over any permutation), and
  the loops with shared state (`compress_roots`, near-grid refinement) as threads
  whose single reads and writes are interleaved arbitrarily.
* `argsort` is any sorting permutation.  Library functions appear as functions
  constrained by a contract: `scipy.ndimage.label` (connected components of a box),
  `np.unique`, an exact linear solver, spline and zoom, arc cosine.

## Trusted base

* The kernel of Coq 8.16.1, including `vm_compute`.
* The Coq standard library.  No axiom is used: `Print Assumptions` reports "Closed
  under the global context" for every property theorem (table below).
* The reading of the Python source.  The model is tied to the code only by the
  citations.
* No axioms, `Admitted`, open obligations, functors, module types, plugins or
  switched-off checks.

## What is modelled

| area | model files | code | simplifications |
|------|-------------|------|-----------------|
| voxel indices, neighbours, maxima, edges | GridModel, NeighModel | shared_numba.py, grid.py | integers do not overflow |
| pointers, labels, on-grid method | RootsModel, RunModel | base.py, ongrid | fuel |
| union-find, with and without image shifts, concurrent compression | UnionModel, ShiftModel, CompressModel | union_find.py, union_finder.py | offsets are unbounded integers; every read and write of the shared array is one atomic step |
| merging of maxima | LabelsModel, RunModel | shared_numba.py 242-542 | the interpolated profile is an oracle, the test on it (`no_valley`) is modelled |
| near-grid method | NearModel | neargrid_numba.py, neargrid_method.py | float32 rounding not modelled, axes of size >= 2 |
| weight method | WeightModel | weight_numba.py, weight_method.py | counters do not overflow, fewer than 10^6 basins, facet offsets within one wrap |
| near-grid weight method | NearWeightModel | neargrid_weight | flat arrays as maps |
| charges, atoms, vacuum | ChargeModel | bader.py | sums are exact |
| the `Bader` object and its caches | BaderModel | bader.py | numerical results abstract; mutation of returned arrays not modelled |
| written volumes, surface distances | SurfaceModel | bader.py 1020-1415, shared_numba.py | a file is its name suffix and its grid; the mean of nothing is 0 (NaN in the code) |
| interpolation, refinement of maxima | InterpModel, RefineModel | interpolation.py | rounding at cell boundaries not modelled, exact solver |
| coordinates, neighbour lists, boxes | CoordModel | grid.py, basic.py | exact inverse matrix |
| labelling of masks | GlabModel | grid.py `Grid.label` | scipy.label by contract |
| the `Grid` object | GobjModel | grid.py | structure is its lattice; no broadcasting; spline and zoom are oracles |
| text, VASP and cube files | TextModel, VaspModel, CubeModel | file_parsers.py | no carriage returns, exact logarithm, `strtod` without inf, nan and hexadecimal numbers |
| structures | StructModel | structure.py | pymatgen classes not modelled |
| atom environments | EnvModel | coord_env.py | root and arc cosine abstract; uninitialised vectors are arbitrary |
| planes and Voronoi cells, bonds | PlaneModel, BondModel | voronoi.py | exact rationals, rounding to 12 digits modelled |
| saddle connections, bifurcation domains | ConnModel, BifModel | domain_bifurcations.py | dimensionality is an arbitrary function, values within (-10^300, 10^12) |
| periodic cycles of a growing solid | CycleModel | bifurcation_base.py 339-578 | offsets unbounded, theorems for offsets within 250000; growing without merging of two winding parts |
| nodes and graphs, dictionaries | NodesModel, DictModel | nodes.py, graph.py | heap of references; JSON text and structure external |
| sharing of feature charges, feature labels | ShareModel, FeatLabModel | elf_labeler.py | final rounding omitted, nonzero weights |
| radii along bonds | RadModel | elf_radii.py, elf_radii_numba.py | interpolated values are oracles |
| BadELF assignment and dimensionality | BadelfModel, DimModel | badelf_numba.py, badelf.py | labels >= -1; the unit conversion at the end (badelf.py 549-556) omitted |
| spin-resolved results | SpinModel | badelf_spin.py, elf_labeler_spin.py | one run per spin is an abstract function; comparison of sites arbitrary |
| gradient from all neighbours | OverModel | neargrid_numba.py 68-124, 245-374 | pseudo-inverse given, float32 rounding not modelled |
| Voronoi facets of a grid point | FacetModel | grid.py 361-410 | scipy's Voronoi diagram by contract |
| saddle points | SaddleModel | bifurcation_base.py 78-330 | counters do not overflow |
| point, ring or cage | RingModel | bifurcation_base.py 19-74 | singular values given |
| atoms surrounded by domains, splitting of domains | AroundModel, SplitModel | surrounded_atoms.py 66-465 | increments that threads may lose are done one after the other |
| construction of the graph | BuildModel (BuildConnProps joins it with ConnModel and BifModel) | graph.py 415-437, 538-608 | payload of nodes made irreducible at the end not followed |
| labels of the features | MarkModel | elf_labeler.py 2036-2128, 2149-2510 | geometry and CrystalNN given per node |
| dividing planes of all atoms | VorModel, BondModel (BondNearProps) | elf_radii.py 73-416, voronoi.py 268-563 | neighbour search and half-space intersection given |
| reports per atom and feature, oxidation states | ReportModel | elf_labeler.py 339-377, 446-672, 1005-1054, 1334-1558; elf_labeler_numba.py 74-124; elf_radii.py 41-58; graph.py 194-262; enum_and_styling.py; bader.py 808-846; badelf.py 811-849 | rounding to ten digits left out |
| stored neighbours and radii of the labelers | CacheModel | elf_labeler.py 277-279, 405-620, 2036-2133; elf_labeler_spin.py 123-226 | results of the searches given; arrays of length one are not broadcast |
| stored results of BadELF | BobjModel | badelf.py 136-171, 313-340, 354-460, 462-609, 744-809, 851-970, 1019-1033 | results of the calculations given; returned arrays are not changed in place |
| driver of the BadELF assignment | AssignModel | badelf.py 388-445, 462-560 | both grids have the same shape |
| files of features and atoms | WriteModel | elf_labeler.py 981-1003, 1384-1414, 1630-1859; elf_labeler_spin.py 780-1027; badelf_spin.py 608-769 | one directory; contents are structure and array |
| tables of results | TsvModel | bader.py 1414-1559, badelf.py 1424-1502, badelf_spin.py 922-1007 | no NaN, no negative zero |
| command line, guess of the format | CliModel | command_line/base.py, file_parsers.py 19-38, 109-143, grid.py 1503-1546, 1612-1644 | typer and logging not modelled, hdf5 left out |
| drawing of a graph | PlotModel | graph.py 678-858 | positions, lines and boxes only |
| three-dimensional plots | ViewModel | plotting/core/plotter.py 102-114, 246-347, 430-664, 800-928, 1028-1055, 1143-1150, 1327-1351, 1397-1490 | what is handed to pyvista; sine and cosine are parameters |
| tabs of the window | GuiModel | plotting/gui/tabs: basin_tab.py 56-116, atom_tab.py 87-194, bader_tab.py 81-197, export_tab.py 99-136 | Qt by its signals, layout left out |
| stored symmetry of a structure | SymModel | structure.py 24-45, 229-287 | site objects in a heap, compared by an arbitrary test, SpacegroupAnalyzer a function that may fail |
| keyword arguments of the constructors | KwModel | bader.py 55-97, elf_labeler.py 162-257, elf_labeler_spin.py 44-94, badelf.py 105-148, badelf_spin.py 29-106 | objects are the settings they store, grids opaque |
| summaries as dictionaries and JSON | SummModel | bader.py 1561-1683, badelf.py 1035-1130, badelf_spin.py 476-546, elf_labeler.py 1861-2015, elf_labeler_spin.py 645-755 | objects are their attributes, entries are replaced in one pass, the encoder accepts what Python's accepts |

Claims that turned out false are theorems `..._refuted` with a witness.  They are the
rows with status `refuted` in the table of properties below.

Not modelled: what pyvista, Qt and plotly draw, the surface and view tabs, logging,
the file system beyond names and contents, numba compilation, HDF5, JSON text, the
internals of numpy, scipy and pymatgen, chemical formulas.
Also left out is code that nothing calls: `ElfLabeler._mark_metallic`, `get_elf_radii` in elf_radii_numba.py,
`Badelf._get_sorted_structure` in badelf.py, `get_neighs_in_planes` in voronoi.py and
the directory methods/gradient_weight, which imports a module that does not exist.
`python3 tools/gen_design.py` lists below every theorem with its outcome.

<!-- generated -->


## Properties

| id | property | status | note |
|----|----------|--------|------|
| C01 | Periodic neighbour lookup lands on the right voxel | proved | Wrapping is a single if/elif: exact characterisation of the window on which it is correct. |
| C02 | The uphill step is the steepest one | proved | Exact rational slopes; neighbour list with unit offsets and positive distances. |
| C03 | Local maxima are found exactly | proved | All schedules of the prange loop; maxima, minima and np.argwhere order. |
| C04 | Pointer resolution returns the end of every ascent chain | proved | Proved for every acyclic table without pointers into the vacuum; the claim for tables with such pointers is C122 (refuted). |
| C05 | On-grid method: every voxel goes to the maximum its steepest ascent reaches | proved | On-grid method from given initial labels, and the whole run (maxima search, merging, ascent, compaction) for every prange schedule. |
| C06 | Basin labels are dense | proved | np.unique(return_inverse) and the -1 shift. |
| C07 | Charge and volume are conserved by voxel integration | proved | Exact rational arithmetic; labels below the number of basins (shown to hold for the whole on-grid run). |
| C08 | When reported basin coordinates belong to the basin with the same index | proved | Exact condition for alignment, and alignment for the weight method. The claim that the on-grid and near-grid pipelines always satisfy the condition is C123 (refuted). |
| C09 | Union-find maintains exactly the requested equivalence | proved | Plain parent array, root mask and UnionFind object; a find of an element never mentioned raises (finding). |
| C10 | Union-find with image shifts keeps consistent offsets | proved | Unbounded integer offsets (the caller uses int8); the size array may hold anything. |
| C11 | Weight method conserves charge and volume | proved | Whole run from maxima search to totals; exact rational arithmetic; fewer than 10^6 maxima. |
| C12 | Weight method labels an edge voxel with the basin that receives most of it | proved | Label within 3e-6 of the largest share when at most 26 basins share the voxel (the program keeps only the 26 largest). |
| C13 | Near-grid refinement terminates and is schedule independent | proved | Whole near-grid run incl. concurrent refinement, every interleaving. dims >= 2, vacuum strictly below non-vacuum in the reference grid (the claim without it is C124, refuted), exact rational gradients. |
| C14 | Near-grid weight method conserves charge | proved | Whole run, charge and volume. Each of the three conditions is necessary: C125, C126, C127 (refuted). |
| C15 | Basin edges are found exactly | proved | get_edges and get_feature_edges, all prange schedules. |
| C16 | Atom totals equal basin totals | proved | Assignment and totals for all cells; the wrapped distance is the distance to the nearest periodic image for orthogonal cells. The claim for skewed cells is C128 (refuted). |
| C17 | Cached results never go stale | proved | Getter/setter state machine of Bader with abstract numerics. Exceptions: C129 (whether atom_avg_surface_distances raises depends on the history) and C130 (vacuum_tol=True in the setter), both refuted. |
| C18 | Vacuum is a sub-level set | proved | Mask, downward closure and count after any history. The meaning of True in the setter is C130 (refuted). |
| C19 | Surface distances | proved | Exact minimum and mean over the basin's own surface voxels when every edge voxel belongs to a basin. With vacuum edge voxels the claim is C131 (refuted). |
| C20 | False maxima are merged into equivalence classes of true maxima | proved | Every grid whose vacuum lies strictly below the rest, every tie order of argsort and every interpolation criterion that does not raise. Without these: C132, C133 (refuted). |
| C21 | Coordinate conversions are inverse to each other | proved | All six round trips, exact arithmetic; the inverse raises exactly for singular cells. |
| C22 | Neighbour lists are complete and symmetric | proved | Complete, duplicate-free, symmetric, true lengths; the 27 translations as an exact permutation with the documented order. |
| C23 | Grid labelling gives periodic connected components | proved | scipy.ndimage.label is a contract (C23_scipy gives a labelling satisfying it for both neighbourhoods); the while loop has fuel above the number of voxels |
| C24 | Derived quantities of a Grid follow its data | proved | Object state with caches as option fields, histories as lists of operations. Structure is the lattice matrix; spline and zoom are oracles; arrays added only when shapes agree. |
| C25 | Linear interpolation is exact, bounded and periodic | proved | Trilinear blend, grid-point exactness, bounds and periodicity for coordinates up to one cell outside the unit cell. Beyond: C134; nearest-point interpolation halfway between voxels on odd grids: C135 (both refuted). |
| C26 | Cubic B-spline interpolation is a periodic partition of unity | proved | Spline weights (all moments), blend, bounds, constants and exact periodicity for all coordinates. |
| C27 | Sub-voxel refinement does not worsen the maximum | proved | Range, value and displacement bound for every exact linear solver; symmetric neighbourhoods leave a grid position unchanged. The claims about a voxel edge and about inputs off the grid are C136 and C137 (refuted). |
| C28 | VASP volumetric data survive writing and reading | proved | C28_roundtrip (all shapes, partial last lines, both arrays, augmentation lines), C28_total, C28_exact |
| C29 | Written numbers decode to the value written | proved | C29_field; the excluded values are C93 and C94 |
| C30 | Cube files survive writing and reading | proved | C30_roundtrip, C30_origin (with an origin, atoms come back relative to it), C30_figures; exact rationals |
| C31 | Site labels are unique after relabelling | proved | C31_unique, C31_keep, C31_ignore |
| C32 | Nearest atom and image searches return true minima | proved | C32_dists, C32_right_angles, C32_nearest, C32_covalent, C32_covalent_fails, C32_all; exact rationals, square root and arc cosine abstract |
| C33 | Miller vectors are perpendicular to their plane | proved | C33_perpendicular for any square root, C33_unit for one with a relative error, C33_zero: indices (0,0,0) fail |
| C34 | Written basin and atom volumes partition the charge | proved | Files of basins, atoms and species: disjoint, complete, summed variant, integral equals the reported charge. Badelf.write_atom_volumes is C138 (refuted). |
| C35 | Bifurcation groups are the connected components at each value | proved | Dimensionality is an arbitrary function of value and lowest basin (its computation from the grid is not part of this model). Connection values are below 1e12. |
| C36 | Bifurcation domains form a tree | proved | Domains with equal basins and different dimensionality count as contained in each other. |
| C37 | Basin connections carry the highest saddle | proved | find_domain_connections for all grids, labels, masks and data (up to 65536 basins, values above -1e300). |
| C38 | Periodic dimensionality is the rank of the cycle lattice | proved | exact arithmetic; accumulated offsets within 250000 cells; steps that join two winding parts are C120 |
| C39 | Graph editing keeps the bifurcation tree well formed | proved | Add, remove, collapse, pruning and combining passes and any history of them keep the graph well formed; no basin is lost unless an irreducible node is removed. The passes may raise (C60). |
| C40 | Graphs survive conversion to and from dictionaries | proved | For every well formed graph whose nodes are infinite exactly when their dimensionality is positive. The JSON text and the structure are handled by external libraries. |
| C41 | Bond radii lie strictly inside the bond | proved | Interpolated value and nearest label are arbitrary functions of the position; np.unique is represented by its contract; fewer than 10^6 points. The symmetry canonicalisation of bonds is external to the theorem (any keys). |
| C42 | Fraction of a voxel below a plane | proved | Volume defined as the limit of Riemann sums over slices; numbers exact rationals, final rounding to 12 digits modelled. |
| C43 | BadELF assigns a voxel to the site whose planes enclose it | proved |  |
| C44 | BadELF shares out boundary voxels completely | proved |  |
| C45 | Electride dimensionality and its cutoffs | proved |  |
| C46 | Feature charges are shared out completely | proved | Exact rationals; the final rounding to ten digits is omitted. Weights must not sum to zero and distances divided by must not be zero. |
| C47 | Feature labels partition the basins | proved | Requires that every basin has an atom and that no basin belongs to two features (C36/C39). |
| C48 | Spin-up and spin-down results merge without loss | proved | exact rationals; comparison of coordinates arbitrary, reflexive where needed |
| C49 | Splitting a grid into spin channels and adding them back | proved | pymatgen's spin_data is modelled from its documentation: halves of sum and difference, stored at the first read. |
| C50 | Equivalent bonds get one canonical representative | refuted | false: after a fourfold rotation about x the bonds (1,-2,0) and (1,0,-2) keep different forms, because the comparison is by components instead of lexicographic; see C115 for what holds |
| C51 | All offsets within a radius are found | proved | Sound, duplicate-free and sorted for all cells; complete for orthogonal cells with positive row lengths. Completeness for skewed cells is C139 (refuted). |
| C52 | Fractional coordinates merge independently of cell wrapping | proved | Mean modulo the lattice, independence of translations and order, and weighted mean for clusters strictly within half a cell of each other. At exactly half a cell: C140; groups with a false flat maximum: C141 (both refuted). |
| C53 | Concurrent root compression is schedule independent | proved | Single reads and writes are atomic; other iterations interleave arbitrarily. |
| C54 | Weight shares follow the flux rule | proved | Proved when the stale `label` never coincides with a neighbour's label and nothing is truncated, with uniqueness. The claim without this condition is C142 (refuted). |
| C55 | Weight method completes | proved | Proved for positive charges and low vacuum. Zero charges: C143; high vacuum voxels: C144 (both refuted). |
| C56 | Boxes around a grid point wrap and are centred | proved | Entries for all sizes; centred box for size 1. Larger sizes: C145 (refuted). |
| C57 | The voxel radius bounds every point of the voxel | proved | For every cell: attained at a corner and bounding the whole voxel; the code omits one corner, which is harmless by symmetry. |
| C58 | Every bifurcation domain has an upper value | proved | Proved for domains with children and for non-root single basins. Roots without children: C146 (refuted). |
| C59 | No touching basin stays unconnected | refuted | Refuted for non-positive data (the second pass starts from 0 and drops zeros); for positive data it holds (C37_linked). |
| C60 | Pruning shallow reducible nodes never fails | refuted | Refuted: two reducible roots (second has no parent) and a root of depth zero (division by zero). |
| C61 | A node's depth agrees with its value range | refuted | Refuted: removing a node changes the parent's max_value but not its cached depth. |
| C62 | A parent's value range ends where its children begin after collapsing a subtree | refuted | Refuted for a node that is its parent's only child. |
| C63 | Dictionaries keep every stored attribute and can be reused | refuted | Refuted: feature_type, nearest_atom_sphere and dist_beyond_atom are not written; from_dict removes the entry 'nodes' from its argument. |
| C64 | 'nearest' gives a feature to its nearest atom | refuted | Refuted: argmin over the coordinated distances is used as an atom index; for features without coordinated atoms argmin of an empty array raises. |
| C65 | 'pauling' gives more to the less electronegative atom | refuted | Refuted: weights are proportional to electronegativity (C65_proportional). |
| C66 | get_feature_labels always returns a tuple | refuted | Refuted: with all three return flags off a bare array is returned. |
| C67 | A bond's radius does not depend on the end it is computed from | refuted | Refuted: of two maxima equally far from the middle the first one met is taken. |
| C68 | Unlabelled points are skipped | refuted | Refuted: a missing label at the atom's own position makes the atom's points foreign and the radius one half. |
| C69 | A zero normal follows the half-space definition | refuted | Refuted: for d < 0 the code answers 0. |
| C70 | Planes kept for the unit cell | proved | A site number not below the number of sites is an out-of-range write, excluded by hypothesis. |
| C71 | A partition containing the whole cell keeps a plane | refuted | Refuted: one atom in the middle of a simple cubic cell keeps no plane. |
| C72 | Planes on the surface of a Voronoi cell | proved |  |
| C73 | Voxels shared equally between sites | refuted | Refuted: a voxel whose best shares are equal is given away with the shares of another voxel. |
| C74 | Boundary voxels are labelled with their largest share | refuted | Refuted: the label is the site that is furthest behind in charge, not the largest share. |
| C75 | The largest share is never dropped | refuted | Refuted: with more than ten sites only the ten smallest shares are kept. |
| C76 | Voxels with a labelled neighbour in the last shell are shared | refuted | Refuted: translations after the last shell boundary are never looked at, and the charge is lost. |
| C77 | The voronelf method assigns by planes alone | refuted | Refuted: voronelf does not clear the labels first. |
| C78 | Fractional and real half-spaces agree in cubic cells | proved |  |
| C79 | Planes dropped for a cell never cut it | refuted | Refuted for an orthorhombic cell: volumes are measured in fractional coordinates with the direction of the bond as normal. |
| C80 | Every mask has a dimensionality | refuted | Refuted: a count of five appends nothing and max of the empty list raises. |
| C81 | Connected features are never reported as isolated | refuted | Refuted: a staircase with period (2,1,0) has no connected pair in the supercell. |
| C82 | Dimensionalities are listed with the highest cutoff | refuted | Refuted: the highest dimensionality is listed with 0 although it exists at higher cutoffs. |
| C83 | No electrides, no dimensionalities | refuted | Refuted: [0] is returned. |
| C84 | Features may lie anywhere in the cell | refuted | Refuted: rounding gives the index n and indexing raises. |
| C85 | Labelling a full mask without a structure | refuted | Refuted for every grid shape |
| C86 | Interpolation follows assignments | refuted | Refuted with witness history; general form C86_kept. |
| C87 | Point volume after make_supercell | refuted | Refuted with witness; exact factor in C87_volume. |
| C88 | Supercell of a spin-polarised grid | refuted | Refuted with witness; general form C88_spin. |
| C89 | Spin parts follow assignments | refuted | Refuted with witness; general form C89_split. |
| C90 | regrid keeps the kind of data | refuted | Refuted with witness; general form C90_regrid. |
| C91 | point_dists is the distance to the origin's lattice | refuted | Refuted with a skewed 2D lattice. |
| C92 | Augmentation data of the spin parts | refuted | Refuted with witness. |
| C93 | Values just below a power of ten are written correctly | refuted | false: 0.999999999999 is written as 0.100000000000E+00 |
| C94 | Files with very small values can be read back | refuted | false: a grid of six values, one of them 1e-120, is written but reading it calls the debugger |
| C95 | Augmentation text survives writing and reading | refuted | false: the text is written one character per line |
| C96 | Non-collinear data survive writing and reading | refuted | false: five arrays are written and only the total is read back |
| C97 | Files written with vasp4_compatible can be read | refuted | false: without symbols every header line is taken for the one before |
| C98 | A missing last newline does no harm | refuted | false: the block is taken to end after the end of the file |
| C99 | Coordinate kinds and volumes of the header are respected | refuted | false: both files are read the same; the lattice is multiplied by the negative number |
| C100 | Atoms keep their places when an origin is written | refuted | false: the origin is subtracted when reading but not added when writing |
| C101 | Reading a cube file keeps the precision of its values | refuted | false: a file of ones in a cell of 123.4 cubic Bohr is read as 100 everywhere |
| C102 | Cube data are read in the order of the format | refuted | false: a 2x1x2 file is read transposed |
| C103 | Writing a cube file leaves its arguments alone | refuted | false: it is multiplied by 1.88973 |
| C104 | Cube files of orbitals can be read | refuted | false: an exception is raised |
| C105 | Significant figures are rounded and guessed correctly | proved | exact rationals |
| C106 | Labels are unique when unique ones are kept | refuted | false: labels X, X, X_1 become X_1, X_2, X_1 |
| C107 | Miller vectors point away from the origin | refuted | false: (-1,1,1) in a cubic cell gives the opposite vector |
| C108 | Coordinates are wrapped into the cell | proved | exact rationals |
| C109 | A new Structure leaves its arguments alone | refuted | false: the array is reduced in place |
| C110 | Labels can be set | refuted | false: the setter only checks the length |
| C111 | Coordinates of several points can be merged | refuted | false: the third axis of a two-dimensional array is looked at, an IndexError |
| C112 | Atom distances are those of the nearest image | refuted | false for skew cells |
| C113 | Every atom has a nearest neighbour | refuted | false: distances from 100 on are ignored and the entries stay uninitialised |
| C114 | Any point can be checked for covalency | refuted | false: a point on an atom raises a ZeroDivisionError |
| C115 | Canonical bonds are minimal images | proved | exact rationals |
| C116 | Operations carry bonds and their dividing points along | proved | exact symmetry and rationals, results rounded to 12 digits as in the code |
| C117 | Lattice translations do not change canonical displacements | refuted | false: (1/2,1/10,0) and (3/2,1/10,0) |
| C118 | A bond and its reverse are told apart | refuted | false: with a screw axis a bond and its reverse have the same form and flag 0, so both ends get the same fraction |
| C119 | Generated bonds carry their length | refuted | false: it is the distance of the dividing point, always equal to the radius |
| C120 | Joined parts keep their dimensionality | refuted | false: cycle lists of joined parts are concatenated, two lines and a bridge are reported as two-dimensional, two planes as four-dimensional |
| C121 | Equal ELF does not hide different charges | refuted | false: only the reference grids are compared; if they agree to 1e-4 the spin-up charge is counted twice. C48_total gives the cases where the claim holds |
| C122 | Pointers into the vacuum end in the vacuum | refuted | Refuted with a witness. numpy index -1 reads the last voxel of the array. |
| C123 | On-grid positions are listed in label order | refuted | Refuted with a witness. Positions are listed in union-find root order. |
| C124 | Near-grid climbs end for every vacuum | refuted | Refuted with a witness. The on-grid fallback steps into the vacuum and back for ever. |
| C125 | Near-grid weight vacuum totals have the units of the others | refuted | Refuted with a witness. The vacuum totals are returned unscaled. |
| C126 | Near-grid weight conserves charge for any pair of grids | refuted | Refuted with a witness. Shares are passed to voxels that were already processed. |
| C127 | Near-grid weight conserves charge at touching maxima | refuted | Refuted with a witness. The charge of such an edge voxel is handed to nobody. |
| C128 | Basins go to the nearest atom in any cell | refuted | Refuted with a witness. Wrapped fractional differences are not nearest images in a skewed cell. |
| C129 | Average atom surface distances can be read at any time | refuted | Refuted with a witness. Raises on a new object, returns after atom_min_surface_distances has been read. |
| C130 | Tolerance True means the default tolerance | refuted | Refuted with a witness. The setter stores True, that is 1. |
| C131 | Surface averages ignore the vacuum | refuted | Refuted with a witness. Label -1 edge voxels are counted for the last basin. |
| C132 | Merging of false maxima ends for every vacuum | refuted | Refuted with a witness. The equally high neighbour is a vacuum voxel. |
| C133 | The profile test returns for every profile | refuted | Refuted with a witness. Reads past the end of its lists. |
| C134 | Linear interpolation wraps any number of cells | refuted | Refuted with a witness. Wraps only once, so it reads outside the array two cells away. |
| C135 | Nearest-point interpolation is periodic | refuted | Refuted with a witness. Halves are rounded to even. |
| C136 | Refinement stays within one voxel | refuted | Refuted with a witness. The clamp divides columns instead of rows of the lattice. |
| C137 | Refinement ends at the parabola maximum from any start | refuted | Refuted with a witness. The offset of the input is kept. |
| C138 | BadELF atom volumes contain the atom | refuted | Refuted with a witness. The mask is inverted and the files accumulate. |
| C139 | All offsets within a radius are found in any cell | refuted | Refuted with a witness. The per-axis bound misses offsets in skewed cells. |
| C140 | Merging is translation invariant at half a cell | refuted | Refuted with a witness. Halves are rounded to even. |
| C141 | Merged maxima are weighted by their own values | refuted | Refuted with a witness. Weights and coordinates are misaligned. |
| C142 | Weight shares follow the flux rule on every grid | refuted | Refuted with a witness. The flux loop compares the left-over variable `label` instead of `neigh_label`. |
| C143 | Weight method completes with zero charges | refuted | Refuted with a witness. Tie break divides by the basin charge. |
| C144 | Weight method completes for any vacuum | refuted | Refuted with a witness. The vacuum voxel is looked up among edge voxels it does not belong to. |
| C145 | Larger boxes are centred | refuted | Refuted with a witness. Every s >= 2 gives a box of s+2 values per axis. |
| C146 | Isolated basins have an upper value | refuted | Refuted with a witness. The value is never written. |
| C147 | Every ELF feature ends with a final label | proved | Geometry and neighbours are given per node; every history of marking steps of the code. |
| C148 | Shells are exactly the features around one atom | proved | Contained atoms of nodes are inputs; the atoms of a collapsed node are those of the domain. |
| C149 | Covalent bonds need angle, joint domain, two neighbours and charge | proved | The geometric test and CrystalNN are inputs (w_bond, w_cnn). |
| C150 | Lone pairs are found in the innermost domain with atoms | proved | Converse for the innermost domain with atoms; strictly increasing minima along the tree. |
| C151 | Bare electrons pass all five thresholds | proved | Distances and radii are inputs. |
| C152 | combine_shells=False still labels shared shells (refuted) | refuted | Refuted with a witness. The attribute subtype is set, which nothing reads. |
| C153 | Covalent marking handles graphs with several roots (refuted) | refuted | Refuted with a witness. No ancestor contains both atoms and None is divided. |
| C154 | The depth to infinite connection is defined for isolated features (refuted) | refuted | Refuted with a witness. The loop variable is unbound when there are no ancestors. |
| C155 | Non-collinear VASP data are read component by component | proved |  |
| C156 | The box of offsets and its connections | proved |  |
| C157 | What marks a saddle point | proved |  |
| C158 | Points that join two regions are marked | proved |  |
| C159 | Marking of joining points among equal values | refuted | Refuted: two equal voxels in the box away from both groups form a group of their own, which makes up for the one lost by joining. C158 has the condition under which it holds. |
| C160 | Points that border the vacuum are not marked | refuted | Refuted: the loop over neighbours stops at the first one of equal value, before it has seen the vacuum neighbours after it. |
| C161 | Domains split by surrounded atoms stay a tree | proved |  |
| C162 | Atoms recorded for a domain | proved |  |
| C163 | A swap of surrounded atoms is seen | refuted | False: only the numbers of atoms are compared. A domain that surrounds atom 0 at one value and atom 1 at the next keeps atom 0. |
| C164 | Parents survive an empty range of values | refuted | False: children of a domain that begins and ends at the same value become roots, because the parent is never in the list of current domains. |
| C165 | Contacts between voids and domains | proved |  |
| C166 | Domains around an atom | proved |  |
| C167 | A void and a domain facing each other | proved |  |
| C168 | The graph built from the domains | proved |  |
| C169 | From connections of basins to the bifurcation graph | proved |  |
| C170 | Every basin becomes an irreducible node | proved |  |
| C171 | Atoms considered for the dividing planes | proved |  |
| C172 | Rows reported by get_voronoi_radii | proved |  |
| C173 | Bonds kept for the polyhedra | proved |  |
| C174 | The two ends of a bond agree | proved | Agreement of the two ends needs the two bonds to have a common smallest image; see C50 and C176 for what happens otherwise. |
| C175 | get_voronoi_radii returns | proved | The routine that finds corners (scipy HalfspaceIntersection) is assumed to succeed when the atom is strictly inside all planes. |
| C176 | The fraction of a bond is the one found along it | refuted | Refuted: without any symmetry the bonds to a neighbour half a cell away on either side have one representative (the sign of the displacement is dropped), and the fraction found along one is used for both. |
| C177 | The planes reported bound the region of the atom | refuted | Refuted: the planes are perpendicular to the bonds in fractional coordinates when it is decided which of them touch the region, so in a skew cell the planes towards the short diagonal are left out although they bound the region. |
| C178 | Smallest ELF radius of each atom | proved | argsort is any sorting permutation. |
| C179 | Features that belong to one site alone | proved |  |
| C180 | An electride is listed with its own feature only | refuted | Refuted by a three-feature graph (C180_electride_refuted); C180_alone gives the condition under which it holds. |
| C181 | Every site has a highest ELF value | refuted | Refuted by two bonded hydrogen atoms (C181_max_refuted). |
| C182 | Structures with feature sites | proved |  |
| C183 | Sites that make a bond covalent | proved |  |
| C184 | Oxidation states from a POTCAR | proved |  |
| C185 | Electrides per formula | proved |  |
| C186 | Surface distances of features | proved |  |
| C187 | Shells searched around an unassigned voxel | proved |  |
| C188 | BadELF and VoronELF distribute all of the charge and volume | proved |  |
| C189 | Electrides keep exactly their basins in BadELF | proved |  |
| C190 | Labels of atom_labels index the charges | refuted | Refuted: the labels count all valence features while charges exist only for atoms and electrides. A bond's voxels carry a label past the end of the charges in the zero-flux method, and voronelf writes past the end of its arrays. |
| C191 | Feature files hold one feature each | proved | Files are names with the grid handed to Grid.write; the text of a file is C28-C30. |
| C192 | Union files hold the chosen features | proved |  |
| C193 | Files by type hold the features of the type | proved | The general rule; C194 and C195 state the two expectations it contradicts. |
| C194 | Every requested type keeps its file | refuted | Refuted with a witness. Types that share a dummy symbol share a file name. |
| C195 | Charge files by type hold the charge | refuted | Refuted with a witness. write_reference is not passed on. |
| C196 | Files of both spins are kept apart | proved |  |
| C197 | Equal spins are written for every type | refuted | Refuted with a witness. The loop returns after the first type. |
| C198 | Atom files of both spins are kept apart | proved |  |
| C199 | Atom files of equal spins have their name | refuted | Refuted with a witness. The temporary name is kept. |
| C200 | Writing spins leaves other files alone | refuted | Refuted with a witness. The plain name is written and renamed. |
| C201 | A directory can be given as text | refuted | Refuted with a witness. The / operator raises for text. |
| C202 | Written files are recognised and read back by from_dynamic | proved | File contents as text; hdf5 not modelled. |
| C203 | convert keeps the total data | proved |  |
| C204 | Claim refuted: convert keeps all data of a file | refuted | Refuted with a witness. total_only=True is the default of the reader. |
| C205 | sum adds the data of two files | proved |  |
| C206 | Claim refuted: regrid keeps the format of its input | refuted | Refuted with a witness. The source format is not passed on. |
| C207 | Names of the files of the two spins | proved |  |
| C208 | Claim refuted: split appends _up and _down to the stem | refuted | Refuted with a witness. str.strip removes characters, not a suffix. |
| C209 | Name of the regridded file | proved |  |
| C210 | Lists of indices on the command line | proved |  |
| C211 | Claim refuted: without indices nothing is selected | refuted | Refuted with a witness. The empty text splits into one empty name. |
| C212 | Tolerances on the command line | proved |  |
| C213 | Unwrapped points are centred around their mean | proved |  |
| C214 | Points, rings and cages | proved |  |
| C215 | The table of atoms | proved |  |
| C216 | The table of basins | proved |  |
| C217 | The tables of BadELF | proved |  |
| C218 | Tables for each spin | proved |  |
| C219 | Claim refuted: write_spin works with the default path | refuted | C219_text_refuted: the attribute parent of the text default is read before it is made a path. |
| C220 | The Voronoi transforms list exactly the facets among neighbours two voxels away | proved |  |
| C221 | A box of two voxels is large enough for reduced grids | proved |  |
| C222 | Claim refuted: two voxels are enough for every cell | refuted | Refuted: the 5x5x5 box of voxels is too small for strongly skewed cells. |
| C223 | The area of a Voronoi facet is the area of its polygon | proved |  |
| C224 | Heights in the bifurcation plot | proved |  |
| C225 | Lines in the bifurcation plot do not cross | proved |  |
| C226 | Boxes in the bifurcation plot are apart | proved |  |
| C227 | Images of atoms at the border of the cell | proved |  |
| C228 | Camera of a Miller plane | proved |  |
| C229 | Outline of the cell | proved |  |
| C230 | Values and points of the structured grid agree | proved |  |
| C231 | Hidden basins | proved |  |
| C232 | Claim refuted: hidden regions are never drawn | refuted | Refuted as stated (values below -1); C231 holds for data that are not negative. |
| C233 | Range and value of the isosurface | proved |  |
| C234 | Claim refuted: the isosurface always lies in the range | refuted | Refuted as stated. |
| C235 | Atoms cut by a slice are drawn | proved |  |
| C236 | Claim refuted: only atoms whose sphere is sliced | refuted | Refuted as stated; C235 is what holds. |
| C237 | Claim refuted: the camera fits the actors | refuted | Refuted as stated; C238 is what holds. |
| C238 | The camera fits the actors for views of one sign | proved |  |
| C239 | Atoms as they are set | proved |  |
| C240 | Claim refuted: hidden atoms stay hidden | refuted | Refuted as stated; C239 is what holds. |
| C241 | Gradient from all neighbours is a least-squares fit | proved | Exact rationals; the pseudo-inverse is given. |
| C242 | Pointers from the gradient of all neighbours lead upwards | proved | Exact rationals; float32 rounding not modelled. |
| C243 | Claim refuted: the near-grid method can use the gradient of all neighbours | refuted | Refuted as stated, for all inputs; the neargrid-weight method takes two values and works (C242). |
| C244 | The plot shows what is ticked | proved | Qt by its signals. |
| C245 | Radii and colours of the Atoms tab | proved | Qt by its signals. |
| C246 | Claim refuted: a committed radius of a species holds for its atoms | refuted | Refuted as stated; C245_species is what holds. |
| C247 | The run button | proved | Qt by its signals. |
| C248 | Claim refuted: Bader runs only with a charge file | refuted | Refuted as stated; C247_edit says when the button is ready. |
| C249 | Claim refuted: one run at a time | refuted | Refuted as stated; C247_calm is what holds. |
| C250 | Exported basins | proved |  |
| C251 | Claim refuted: the chosen grid is exported | refuted | Refuted for all inputs. |
| C252 | Claim refuted: any answer of the dialog can be used | refuted | Refuted as stated; C250 says which names work. |
| C253 | Neighbour pairs and radii do not depend on the order of reading | proved | Results of the two searches are given; the marking of features reads the radii once (line 2464). |
| C254 | Claim refuted: the radius types with electrides match the radii with electrides | refuted | Refuted with a witness, for all histories. The attribute without electrides is returned. |
| C255 | Claim refuted: a failed labelling keeps failing | refuted | Refuted with two witnesses. The graph is stored before the labelling is done. |
| C256 | Claim refuted: reading the common pairs leaves the down spin unchanged | refuted | Refuted with a witness. The pairs of the up spin are stored in the down labeler. |
| C257 | Claim refuted: the mean radius of a pair is the mean over the spins of that pair | refuted | Refuted with a witness. Entries are averaged by place. Where it holds: C259. |
| C258 | The spin labeler and its two labelers answer independently of the order of reading | proved | Pairs of the down spin are its own only if both spins found the same (otherwise C256, refuted). |
| C259 | Mean radii of pairs are right when the spins list the same pairs | proved |  |
| C260 | A failure before the graph is stored repeats | proved |  |
| C261 | BadELF results do not depend on the order of reading | proved |  |
| C262 | BadELF answers always come from one assignment | proved |  |
| C263 | Claim refuted: assigning the method has the effect of a new object | refuted |  |
| C264 | Claim refuted: a BadELF getter that raised raises again | refuted |  |
| C265 | Charges, volumes and their totals always answer alike, even when something fails | proved |  |
| C266 | Pruning removes exactly the shallow reducible nodes | proved | Depths are exact rationals. Hypotheses: no depth has been asked for yet (true right after construction) and parents of reducible nodes have a strictly lower minimum. |
| C267 | Combining collapses only domains whose leaves are all shallow, and leaves none | proved | Stated for runs that finish. Depths are exact rationals. C267_combined assumes that the depths of parents of reducible nodes have been asked for before, which C267_built derives from the pruning pass. |
| C268 | Stored symmetry belongs to the present sites | proved | Sites are a value compared by an arbitrary test; SpacegroupAnalyzer is a function that may fail. The three ways in which the claim fails without the conditions are C269, C270 and C271. |
| C269 | Claim refuted: assigned symmetry settings are used | refuted | C269_ignored shows that after a read no assignment has any effect until the sites change. |
| C270 | Claim refuted: symmetry data follow the sites | refuted | Witness: read data, change sites, read analyzer, read data. |
| C271 | Claim refuted: a failing symmetry search keeps failing | refuted | Witness: read data, change to failing sites, read twice. |
| C272 | Claim refuted: shells and lone pairs are coordinated to their nearest atom alone | refuted | Witness with two atoms: a lone pair nearest to atom 0 that keeps three neighbours. |
| C273 | A feature's neighbours are its nearest atom, its CrystalNN neighbours or its bond's two atoms | proved |  |
| C274 | Claim refuted: stored symmetry follows sites edited in place | refuted |  |
| C275 | Every keyword given to ElfLabeler takes effect, every one left out has its default | proved |  |
| C276 | Settings for both spins and for BadELF reach their labelers | proved |  |
| C277 | Claim refuted: a keyword that is not used is reported | refuted |  |
| C278 | Claim refuted: max_metal_depth is used | refuted |  |
| C279 | A Bader summary without a POTCAR can be written as JSON | proved |  |
| C280 | Claim refuted: a Bader summary with a POTCAR can be written as JSON | refuted |  |
| C281 | A BadELF summary can be written as JSON | proved |  |
| C282 | A spin BadELF summary can be written as JSON | proved |  |
| C283 | Claim refuted: a spin BadELF summary reports the labeler's settings | refuted |  |
| C284 | Summaries of the ELF labelers can be written as JSON | proved |  |
| C285 | Claim refuted: the splitting method of a labeler summary is used | refuted |  |
| C286 | Claim refuted: a labeler summary reports all settings | refuted |  |

## Theorems and assumptions

| theorem | file | Print Assumptions |
|---------|------|-------------------|
| C01_wrap_window | CoreProps.v | Closed under the global context |
| C01_neighbour_in_range | CoreProps.v | Closed under the global context |
| C01_shift_reconstructs | CoreProps.v | Closed under the global context |
| C01_flat_bijection | CoreProps.v | Closed under the global context |
| C02_best_neighbor | CoreProps.v | Closed under the global context |
| C02_stays_iff_maximum | CoreProps.v | Closed under the global context |
| C03_maxima_exact | CoreProps.v | Closed under the global context |
| C03_minima_exact | CoreProps.v | Closed under the global context |
| C03_maximum_exists | CoreProps.v | Closed under the global context |
| C03_argwhere | CoreProps.v | Closed under the global context |
| C04_roots | CoreProps.v | Closed under the global context |
| C04_end_unique | CoreProps.v | Closed under the global context |
| C05_ongrid | CoreProps.v | Closed under the global context |
| C05_ascent_terminates | CoreProps.v | Closed under the global context |
| C05_run | LabelsProps.v | Closed under the global context |
| C06_dense_labels | CoreProps.v | Closed under the global context |
| C07_basin_content | CoreProps.v | Closed under the global context |
| C07_conservation | CoreProps.v | Closed under the global context |
| C07_run_conserves | LabelsProps.v | Closed under the global context |
| C08_aligned_iff_sorted | LabelsProps.v | Closed under the global context |
| C08_weight_aligned | WeightProps.v | Closed under the global context |
| C09_history | UnionProps.v | Closed under the global context |
| C09_root_mask_history | UnionProps.v | Closed under the global context |
| C09_object_groups | UnionProps.v | Closed under the global context |
| C09_unseen_find_raises | UnionProps.v | Closed under the global context |
| C10_shift_history | UnionProps.v | Closed under the global context |
| C10_union_step | UnionProps.v | Closed under the global context |
| C11_conserves | WeightProps.v | Closed under the global context |
| C12_labels | WeightProps.v | Closed under the global context |
| C13_gradients | NearProps.v | Closed under the global context |
| C13_climb | NearProps.v | Closed under the global context |
| C13_pass | NearProps.v | Closed under the global context |
| C13_run | NearProps.v | Closed under the global context |
| C13_conserves | NearProps.v | Closed under the global context |
| C14_conserves | NearWeightProps.v | Closed under the global context |
| C14_shares | NearWeightProps.v | Closed under the global context |
| C15_edges | CoreProps.v | Closed under the global context |
| C15_feature_edges | CoreProps.v | Closed under the global context |
| C16_assignment | CoreProps.v | Closed under the global context |
| C16_orthogonal_nearest_image | CoreProps.v | Closed under the global context |
| C17_never_stale | BaderProps.v | Closed under the global context |
| C17_order_free | BaderProps.v | Closed under the global context |
| C17_atom_avg | BaderProps.v | Closed under the global context |
| C18_vacuum | BaderProps.v | Closed under the global context |
| C19_surface | SurfaceProps.v | Closed under the global context |
| C20_merging | LabelsProps.v | Closed under the global context |
| C20_profile_test | LabelsProps.v | Closed under the global context |
| C21_round_trips | CoordProps.v | Closed under the global context |
| C21_cartesian | CoordProps.v | Closed under the global context |
| C21_singular | CoordProps.v | Closed under the global context |
| C22_neighbors | CoordProps.v | Closed under the global context |
| C22_once | CoordProps.v | Closed under the global context |
| C22_distances | CoordProps.v | Closed under the global context |
| C22_symmetric | CoordProps.v | Closed under the global context |
| C22_faces | CoordProps.v | Closed under the global context |
| C22_faces_symmetric | CoordProps.v | Closed under the global context |
| C22_images | CoordProps.v | Closed under the global context |
| C23_label | GlabProps.v | Closed under the global context |
| C23_structure | GlabProps.v | Closed under the global context |
| C23_scipy | GlabProps.v | Closed under the global context |
| C24_caches | GobjProps.v | Closed under the global context |
| C24_made | GobjProps.v | Closed under the global context |
| C24_neighbours | GobjProps.v | Closed under the global context |
| C24_supercell | GobjProps.v | Closed under the global context |
| C24_copy | GobjProps.v | Closed under the global context |
| C24_dists | GobjProps.v | Closed under the global context |
| C25_trilinear | InterpProps.v | Closed under the global context |
| C25_grid_points | InterpProps.v | Closed under the global context |
| C25_bounded | InterpProps.v | Closed under the global context |
| C25_periodic | InterpProps.v | Closed under the global context |
| C25_nearest | InterpProps.v | Closed under the global context |
| C25_points | InterpProps.v | Closed under the global context |
| C25_slice | InterpProps.v | Closed under the global context |
| C26_weights | InterpProps.v | Closed under the global context |
| C26_blend | InterpProps.v | Closed under the global context |
| C26_bounded | InterpProps.v | Closed under the global context |
| C26_constant | InterpProps.v | Closed under the global context |
| C26_periodic | InterpProps.v | Closed under the global context |
| C27_fit | RefineFitProps.v | Closed under the global context |
| C27_refine | RefineProps.v | Closed under the global context |
| C27_symmetric | RefineProps.v | Closed under the global context |
| C27_maxima | RefineProps.v | Closed under the global context |
| C28_roundtrip | VaspProps.v | Closed under the global context |
| C28_total | VaspProps.v | Closed under the global context |
| C28_exact | VaspProps.v | Closed under the global context |
| C29_field | VaspProps.v | Closed under the global context |
| C30_roundtrip | CubeProps.v | Closed under the global context |
| C30_origin | CubeProps.v | Closed under the global context |
| C30_figures | CubeProps.v | Closed under the global context |
| C31_unique | StructProps.v | Closed under the global context |
| C31_keep | StructProps.v | Closed under the global context |
| C31_ignore | StructProps.v | Closed under the global context |
| C32_dists | EnvProps.v | Closed under the global context |
| C32_right_angles | EnvProps.v | Closed under the global context |
| C32_nearest | EnvProps.v | Closed under the global context |
| C32_covalent | EnvProps.v | Closed under the global context |
| C32_covalent_fails | EnvProps.v | Closed under the global context |
| C32_all | EnvProps.v | Closed under the global context |
| C33_perpendicular | StructProps.v | Closed under the global context |
| C33_unit | StructProps.v | Closed under the global context |
| C33_zero | StructProps.v | Closed under the global context |
| C34_disjoint | SurfaceProps.v | Closed under the global context |
| C34_one_file_per_index | SurfaceProps.v | Closed under the global context |
| C34_sum | SurfaceProps.v | Closed under the global context |
| C34_partition | SurfaceProps.v | Closed under the global context |
| C34_integral | SurfaceProps.v | Closed under the global context |
| C34_species | SurfaceProps.v | Closed under the global context |
| C35_groups | BifProps.v | Closed under the global context |
| C35_dims | BifProps.v | Closed under the global context |
| C35_identity | BifProps.v | Closed under the global context |
| C36_forest | BifProps.v | Closed under the global context |
| C37_saddles | ConnProps.v | Closed under the global context |
| C37_missing | ConnProps.v | Closed under the global context |
| C37_sound | ConnProps.v | Closed under the global context |
| C37_linked | ConnProps.v | Closed under the global context |
| C38_total | CycleProps.v | Closed under the global context |
| C38_rank | CycleProps.v | Closed under the global context |
| C38_outside | CycleProps.v | Closed under the global context |
| C38_groups | CycleProps.v | Closed under the global context |
| C38_fresh | CycleProps.v | Closed under the global context |
| C39_empty | NodesProps.v | Closed under the global context |
| C39_add | NodesProps.v | Closed under the global context |
| C39_remove | NodesProps.v | Closed under the global context |
| C39_remove_root | NodesProps.v | Closed under the global context |
| C39_collapse | NodesProps.v | Closed under the global context |
| C39_branches | NodesProps.v | Closed under the global context |
| C39_leaves | NodesProps.v | Closed under the global context |
| C39_prune | NodesProps.v | Closed under the global context |
| C39_combine | NodesProps.v | Closed under the global context |
| C39_history | NodesProps.v | Closed under the global context |
| C39_build | NodesProps.v | Closed under the global context |
| C40_round_trip | DictProps.v | Closed under the global context |
| C40_stable | DictProps.v | Closed under the global context |
| C41_points | RadProps.v | Closed under the global context |
| C41_rule | RadProps.v | Closed under the global context |
| C41_inside | RadProps.v | Closed under the global context |
| C41_all | RadProps.v | Closed under the global context |
| C41_classes | RadProps.v | Closed under the global context |
| C42_volume | PlaneProps.v | Closed under the global context |
| C42_meaning | PlaneProps.v | Closed under the global context |
| C42_range | PlaneProps.v | Closed under the global context |
| C42_monotone | PlaneProps.v | Closed under the global context |
| C42_both_sides | PlaneProps.v | Closed under the global context |
| C42_one_side | PlaneProps.v | Closed under the global context |
| C43_assigned | BadelfProps.v | Closed under the global context |
| C43_only | BadelfProps.v | Closed under the global context |
| C43_position | BadelfProps.v | Closed under the global context |
| C43_grouped | BadelfProps.v | Closed under the global context |
| C43_totals | BadelfProps.v | Closed under the global context |
| C44_fractions | BadelfProps.v | Closed under the global context |
| C44_conserved | BadelfProps.v | Closed under the global context |
| C44_shares | BadelfProps.v | Closed under the global context |
| C44_whole | BadelfProps.v | Closed under the global context |
| C45_labels | DimProps.v | Closed under the global context |
| C45_dimension | DimProps.v | Closed under the global context |
| C45_sound | DimProps.v | Closed under the global context |
| C45_monotone | DimProps.v | Closed under the global context |
| C45_search | DimProps.v | Closed under the global context |
| C45_cutoffs | DimProps.v | Closed under the global context |
| C46_shares | ShareProps.v | Closed under the global context |
| C46_conserved | ShareProps.v | Closed under the global context |
| C47_labels | FeatLabProps.v | Closed under the global context |
| C47_conserved | FeatLabProps.v | Closed under the global context |
| C47_parts | FeatLabProps.v | Closed under the global context |
| C48_sum | SpinProps.v | Closed under the global context |
| C48_shared | SpinProps.v | Closed under the global context |
| C48_alone | SpinProps.v | Closed under the global context |
| C48_routes | SpinProps.v | Closed under the global context |
| C48_names | SpinProps.v | Closed under the global context |
| C48_aligned | SpinProps.v | Closed under the global context |
| C48_atoms | SpinProps.v | Closed under the global context |
| C48_electrides | SpinProps.v | Closed under the global context |
| C48_equal | SpinProps.v | Closed under the global context |
| C48_rounded | SpinProps.v | Closed under the global context |
| C48_total | SpinProps.v | Closed under the global context |
| C48_total_listed | SpinProps.v | Closed under the global context |
| C49_charge | GobjProps.v | Closed under the global context |
| C49_elf | GobjProps.v | Closed under the global context |
| C49_linear | GobjProps.v | Closed under the global context |
| C49_keys | GobjProps.v | Closed under the global context |
| C49_sum | GobjProps.v | Closed under the global context |
| C50_equivalent_refuted | BondProps.v | Closed under the global context |
| C51_radius | CoordProps.v | Closed under the global context |
| C51_orthogonal | CoordProps.v | Closed under the global context |
| C52_mean | CoordProps.v | Closed under the global context |
| C52_invariant | CoordProps.v | Closed under the global context |
| C52_weighted | CoordProps.v | Closed under the global context |
| C52_rounding | CoordProps.v | Closed under the global context |
| C53_concurrent_compression | UnionProps.v | Closed under the global context |
| C53_schedule_independent | UnionProps.v | Closed under the global context |
| C54_flux_rule | WeightProps.v | Closed under the global context |
| C54_unique | WeightProps.v | Closed under the global context |
| C55_completes | WeightProps.v | Closed under the global context |
| C56_entries | CoordProps.v | Closed under the global context |
| C56_default | CoordProps.v | Closed under the global context |
| C57_bound | CoordProps.v | Closed under the global context |
| C57_corner | CoordProps.v | Closed under the global context |
| C58_upper_value | BifProps.v | Closed under the global context |
| C59_linked_refuted | ConnProps.v | Closed under the global context |
| C60_roots_refuted | NodesProps.v | Closed under the global context |
| C60_depth_refuted | NodesProps.v | Closed under the global context |
| C61_stale_refuted | NodesProps.v | Closed under the global context |
| C62_overlap_refuted | NodesProps.v | Closed under the global context |
| C63_features_refuted | DictProps.v | Closed under the global context |
| C63_once_refuted | DictProps.v | Closed under the global context |
| C64_nearest_refuted | ShareProps.v | Closed under the global context |
| C64_alone_refuted | ShareProps.v | Closed under the global context |
| C65_pauling_refuted | ShareProps.v | Closed under the global context |
| C65_proportional | ShareProps.v | Closed under the global context |
| C66_tuple_refuted | FeatLabProps.v | Closed under the global context |
| C67_ends_refuted | RadProps.v | Closed under the global context |
| C68_unlabelled_refuted | RadProps.v | Closed under the global context |
| C69_zero_normal_refuted | PlaneProps.v | Closed under the global context |
| C70_translations | PlaneProps.v | Closed under the global context |
| C70_volume | PlaneProps.v | Closed under the global context |
| C70_kept | PlaneProps.v | Closed under the global context |
| C71_whole_cell_refuted | PlaneProps.v | Closed under the global context |
| C72_surface | PlaneProps.v | Closed under the global context |
| C73_tied_refuted | BadelfProps.v | Closed under the global context |
| C74_label_refuted | BadelfProps.v | Closed under the global context |
| C75_ten_refuted | BadelfProps.v | Closed under the global context |
| C76_lost_refuted | BadelfProps.v | Closed under the global context |
| C77_voronelf_refuted | BadelfProps.v | Closed under the global context |
| C78_cubic | BadelfProps.v | Closed under the global context |
| C79_edges_refuted | BadelfProps.v | Closed under the global context |
| C80_five_refuted | DimProps.v | Closed under the global context |
| C81_stair_refuted | DimProps.v | Closed under the global context |
| C82_highest_refuted | DimProps.v | Closed under the global context |
| C83_none_refuted | DimProps.v | Closed under the global context |
| C84_edge_refuted | DimProps.v | Closed under the global context |
| C85_full_refuted | GlabProps.v | Closed under the global context |
| C86_kept | GobjProps.v | Closed under the global context |
| C86_coeffs_refuted | GobjProps.v | Closed under the global context |
| C87_volume | GobjProps.v | Closed under the global context |
| C87_volume_refuted | GobjProps.v | Closed under the global context |
| C88_spin | GobjProps.v | Closed under the global context |
| C88_spin_refuted | GobjProps.v | Closed under the global context |
| C89_split | GobjProps.v | Closed under the global context |
| C89_split_refuted | GobjProps.v | Closed under the global context |
| C90_regrid | GobjProps.v | Closed under the global context |
| C90_regrid_refuted | GobjProps.v | Closed under the global context |
| C91_dists_refuted | GobjProps.v | Closed under the global context |
| C92_augmentation_refuted | GobjProps.v | Closed under the global context |
| C93_carry_refuted | VaspProps.v | Closed under the global context |
| C94_width_refuted | VaspProps.v | Closed under the global context |
| C95_augmentation_refuted | VaspProps.v | Closed under the global context |
| C96_noncollinear_refuted | VaspProps.v | Closed under the global context |
| C97_vasp4_refuted | VaspProps.v | Closed under the global context |
| C98_newline_refuted | VaspProps.v | Closed under the global context |
| C99_cartesian_refuted | VaspProps.v | Closed under the global context |
| C99_volume_refuted | VaspProps.v | Closed under the global context |
| C100_origin_refuted | CubeProps.v | Closed under the global context |
| C101_uniform_refuted | CubeProps.v | Closed under the global context |
| C102_order_refuted | CubeProps.v | Closed under the global context |
| C103_origin_refuted | CubeProps.v | Closed under the global context |
| C104_orbital_refuted | CubeProps.v | Closed under the global context |
| C105_round | CubeProps.v | Closed under the global context |
| C105_exact | CubeProps.v | Closed under the global context |
| C105_idempotent | CubeProps.v | Closed under the global context |
| C105_infer | CubeProps.v | Closed under the global context |
| C106_ignore_refuted | StructProps.v | Closed under the global context |
| C107_direction_refuted | StructProps.v | Closed under the global context |
| C108_wrapped | StructProps.v | Closed under the global context |
| C108_kept | StructProps.v | Closed under the global context |
| C109_mutates_refuted | StructProps.v | Closed under the global context |
| C110_labels_refuted | StructProps.v | Closed under the global context |
| C111_merge_refuted | StructProps.v | Closed under the global context |
| C112_skew_refuted | EnvProps.v | Closed under the global context |
| C113_far_refuted | EnvProps.v | Closed under the global context |
| C114_on_atom_refuted | EnvProps.v | Closed under the global context |
| C115_opposite | BondProps.v | Closed under the global context |
| C115_translated | BondProps.v | Closed under the global context |
| C115_close | BondProps.v | Closed under the global context |
| C115_image | BondProps.v | Closed under the global context |
| C115_minimal | BondProps.v | Closed under the global context |
| C115_least | BondProps.v | Closed under the global context |
| C115_sites | BondProps.v | Closed under the global context |
| C115_find | BondProps.v | Closed under the global context |
| C115_bonds | BondProps.v | Closed under the global context |
| C116_tolerance | BondNearProps.v | Closed under the global context |
| C116_row | BondProps.v | Closed under the global context |
| C116_rows | BondProps.v | Closed under the global context |
| C117_half_refuted | BondProps.v | Closed under the global context |
| C118_reverse_refuted | BondProps.v | Closed under the global context |
| C119_dist_refuted | BondProps.v | Closed under the global context |
| C120_merge_refuted | CycleProps.v | Closed under the global context |
| C121_equal_spin_refuted | SpinProps.v | Closed under the global context |
| C122_vacuum_pointer_refuted | CoreProps.v | Closed under the global context |
| C123_positions_swapped_refuted | LabelsProps.v | Closed under the global context |
| C124_vacuum_hang_refuted | NearProps.v | Closed under the global context |
| C125_vacuum_scale_refuted | NearWeightProps.v | Closed under the global context |
| C126_order_refuted | NearWeightProps.v | Closed under the global context |
| C127_edge_maximum_refuted | NearWeightProps.v | Closed under the global context |
| C128_nearest_skewed_refuted | CoreProps.v | Closed under the global context |
| C129_atom_avg_refuted | BaderProps.v | Closed under the global context |
| C130_vacuum_true_refuted | BaderProps.v | Closed under the global context |
| C130_true_setter_refuted | BaderProps.v | Closed under the global context |
| C131_vacuum_refuted | SurfaceProps.v | Closed under the global context |
| C132_vacuum_hang_refuted | LabelsProps.v | Closed under the global context |
| C133_profile_raises_refuted | LabelsProps.v | Closed under the global context |
| C134_far_refuted | InterpProps.v | Closed under the global context |
| C135_nearest_half_refuted | InterpProps.v | Closed under the global context |
| C136_step_refuted | RefineProps.v | Closed under the global context |
| C137_offgrid_refuted | RefineProps.v | Closed under the global context |
| C138_badelf_refuted | SurfaceProps.v | Closed under the global context |
| C139_skewed_refuted | CoordProps.v | Closed under the global context |
| C140_half_refuted | CoordProps.v | Closed under the global context |
| C141_misaligned_refuted | CoordProps.v | Closed under the global context |
| C142_stale_label_refuted | WeightProps.v | Closed under the global context |
| C143_zero_charge_refuted | WeightProps.v | Closed under the global context |
| C144_high_vacuum_refuted | WeightProps.v | Closed under the global context |
| C145_size_refuted | CoordProps.v | Closed under the global context |
| C146_root_refuted | BifProps.v | Closed under the global context |
| C147_assigned | MarkProps.v | Closed under the global context |
| C147_labels | MarkProps.v | Closed under the global context |
| C147_atoms | MarkProps.v | Closed under the global context |
| C148_shells | MarkProps.v | Closed under the global context |
| C148_total | MarkProps.v | Closed under the global context |
| C149_bonds | MarkProps.v | Closed under the global context |
| C149_unique | MarkProps.v | Closed under the global context |
| C149_total | MarkProps.v | Closed under the global context |
| C150_sound | MarkProps.v | Closed under the global context |
| C150_complete | MarkProps.v | Closed under the global context |
| C150_total | MarkProps.v | Closed under the global context |
| C151_bare | MarkProps.v | Closed under the global context |
| C151_depth_unique | MarkProps.v | Closed under the global context |
| C151_total | MarkProps.v | Closed under the global context |
| C152_uncombined_refuted | MarkProps.v | Closed under the global context |
| C153_separate_refuted | MarkProps.v | Closed under the global context |
| C154_isolated_refuted | MarkProps.v | Closed under the global context |
| C155_vector | VectorProps.v | Closed under the global context |
| C156_offsets | SaddleProps.v | Closed under the global context |
| C156_connections | SaddleProps.v | Closed under the global context |
| C156_shift_index | SaddleProps.v | Closed under the global context |
| C157_large | SaddleProps.v | Closed under the global context |
| C157_small | SaddleProps.v | Closed under the global context |
| C157_unique | SaddleProps.v | Closed under the global context |
| C157_marked | SaddleProps.v | Closed under the global context |
| C158_found | SaddleProps.v | Closed under the global context |
| C158_alone | SaddleProps.v | Closed under the global context |
| C159_ties_refuted | SaddleProps.v | Closed under the global context |
| C160_vacuum_refuted | SaddleProps.v | Closed under the global context |
| C161_versions | SplitProps.v | Closed under the global context |
| C161_disjoint | SplitProps.v | Closed under the global context |
| C161_tree | SplitProps.v | Closed under the global context |
| C162_atoms | SplitProps.v | Closed under the global context |
| C162_listed | SplitProps.v | Closed under the global context |
| C163_atoms_refuted | SplitProps.v | Closed under the global context |
| C164_empty_refuted | SplitProps.v | Closed under the global context |
| C165_counts | AroundProps.v | Closed under the global context |
| C166_found | AroundProps.v | Closed under the global context |
| C166_finite | AroundProps.v | Closed under the global context |
| C166_all | AroundProps.v | Closed under the global context |
| C167_bounce | AroundProps.v | Closed under the global context |
| C168_construct | BuildProps.v | Closed under the global context |
| C169_graph | BuildProps.v | Closed under the global context |
| C169_leaves | BuildProps.v | Closed under the global context |
| C170_basins | BuildConnProps.v | Closed under the global context |
| C170_joined | BuildConnProps.v | Closed under the global context |
| C171_sorted | VorProps.v | Closed under the global context |
| C171_considered | VorProps.v | Closed under the global context |
| C171_done | VorProps.v | Closed under the global context |
| C172_types | VorProps.v | Closed under the global context |
| C172_result | VorProps.v | Closed under the global context |
| C173_flags | VorProps.v | Closed under the global context |
| C174_half | VorProps.v | Closed under the global context |
| C174_ends | VorProps.v | Closed under the global context |
| C174_plane | VorProps.v | Closed under the global context |
| C175_done | VorProps.v | Closed under the global context |
| C176_along_refuted | VorExProps.v | Closed under the global context |
| C177_bounding_refuted | VorExProps.v | Closed under the global context |
| C178_smallest | ReportProps.v | Closed under the global context |
| C178_absent | ReportProps.v | Closed under the global context |
| C178_done | ReportProps.v | Closed under the global context |
| C179_indices | ReportProps.v | Closed under the global context |
| C179_once | ReportProps.v | Closed under the global context |
| C179_defined | ReportProps.v | Closed under the global context |
| C179_max | ReportProps.v | Closed under the global context |
| C180_electride_refuted | ReportProps.v | Closed under the global context |
| C180_alone | ReportProps.v | Closed under the global context |
| C181_max_refuted | ReportProps.v | Closed under the global context |
| C182_structure | ReportProps.v | Closed under the global context |
| C182_prefix | ReportProps.v | Closed under the global context |
| C182_labels | ReportProps.v | Closed under the global context |
| C183_covalent | ReportProps.v | Closed under the global context |
| C184_bader | ReportOxProps.v | Closed under the global context |
| C184_badelf | ReportOxProps.v | Closed under the global context |
| C184_labeler | ReportOxProps.v | Closed under the global context |
| C184_total | ReportOxProps.v | Closed under the global context |
| C184_agree | ReportOxProps.v | Closed under the global context |
| C185_sites | ReportOxProps.v | Closed under the global context |
| C186_surface | ReportOxProps.v | Closed under the global context |
| C187_sphere | AssignProps.v | Closed under the global context |
| C187_breaks | AssignProps.v | Closed under the global context |
| C187_examined | AssignProps.v | Closed under the global context |
| C187_radii | AssignProps.v | Closed under the global context |
| C188_total | AssignProps.v | Closed under the global context |
| C189_electrides | AssignProps.v | Closed under the global context |
| C190_labels_refuted | AssignProps.v | Closed under the global context |
| C191_features | WriteProps.v | Closed under the global context |
| C191_names | WriteProps.v | Closed under the global context |
| C191_all | WriteProps.v | Closed under the global context |
| C192_union | WriteProps.v | Closed under the global context |
| C192_types | WriteProps.v | Closed under the global context |
| C193_types | WriteProps.v | Closed under the global context |
| C193_frame | WriteProps.v | Closed under the global context |
| C194_shared_refuted | WriteProps.v | Closed under the global context |
| C195_charge_refuted | WriteProps.v | Closed under the global context |
| C196_features | WriteProps.v | Closed under the global context |
| C196_types | WriteProps.v | Closed under the global context |
| C196_union | WriteProps.v | Closed under the global context |
| C197_equal_refuted | WriteProps.v | Closed under the global context |
| C197_first | WriteProps.v | Closed under the global context |
| C198_atoms | WriteProps.v | Closed under the global context |
| C198_all | WriteProps.v | Closed under the global context |
| C199_named_refuted | WriteProps.v | Closed under the global context |
| C199_temporary | WriteProps.v | Closed under the global context |
| C200_removed_refuted | WriteProps.v | Closed under the global context |
| C201_text_refuted | WriteProps.v | Closed under the global context |
| C202_vasp | CliProps.v | Closed under the global context |
| C202_cube | CliProps.v | Closed under the global context |
| C202_hdf5 | CliProps.v | Closed under the global context |
| C202_binary | CliProps.v | Closed under the global context |
| C202_read | CliProps.v | Closed under the global context |
| C203_total | CliProps.v | Closed under the global context |
| C204_spin_refuted | CliProps.v | Closed under the global context |
| C205_sum | CliProps.v | Closed under the global context |
| C205_format | CliProps.v | Closed under the global context |
| C206_vasp | CliProps.v | Closed under the global context |
| C206_format_refuted | CliProps.v | Closed under the global context |
| C207_names | CliProps.v | Closed under the global context |
| C207_plain | CliProps.v | Closed under the global context |
| C207_distinct | CliProps.v | Closed under the global context |
| C208_stem_refuted | CliProps.v | Closed under the global context |
| C208_overwritten_refuted | CliProps.v | Closed under the global context |
| C209_name | CliProps.v | Closed under the global context |
| C209_plain | CliProps.v | Closed under the global context |
| C209_other | CliProps.v | Closed under the global context |
| C210_items | CliProps.v | Closed under the global context |
| C210_integers | CliProps.v | Closed under the global context |
| C210_calls | CliProps.v | Closed under the global context |
| C210_species | CliProps.v | Closed under the global context |
| C210_literal | CliProps.v | Closed under the global context |
| C211_none_refuted | CliProps.v | Closed under the global context |
| C212_flag | CliProps.v | Closed under the global context |
| C212_case | CliProps.v | Closed under the global context |
| C212_number | CliProps.v | Closed under the global context |
| C213_centred | RingProps.v | Closed under the global context |
| C214_few | RingProps.v | Closed under the global context |
| C214_three | RingProps.v | Closed under the global context |
| C214_plane | RingProps.v | Closed under the global context |
| C214_near | RingProps.v | Closed under the global context |
| C214_cage | RingProps.v | Closed under the global context |
| C215_atoms | TsvProps.v | Closed under the global context |
| C215_totals | TsvProps.v | Closed under the global context |
| C215_lengths | TsvProps.v | Closed under the global context |
| C216_basins | TsvProps.v | Closed under the global context |
| C216_missing | TsvProps.v | Closed under the global context |
| C216_negative | TsvProps.v | Closed under the global context |
| C217_table | TsvProps.v | Closed under the global context |
| C217_spin | TsvProps.v | Closed under the global context |
| C218_paths | TsvProps.v | Closed under the global context |
| C219_text_refuted | TsvProps.v | Closed under the global context |
| C220_listed | FacetProps.v | Closed under the global context |
| C220_opposite | FacetProps.v | Closed under the global context |
| C221_reduced | FacetProps.v | Closed under the global context |
| C221_orthogonal | FacetProps.v | Closed under the global context |
| C222_skew_refuted | FacetProps.v | Closed under the global context |
| C223_cross | FacetProps.v | Closed under the global context |
| C223_area | FacetProps.v | Closed under the global context |
| C223_start | FacetProps.v | Closed under the global context |
| C224_heights | PlotProps.v | Closed under the global context |
| C225_lines | PlotProps.v | Closed under the global context |
| C225_apart | PlotProps.v | Closed under the global context |
| C225_siblings | PlotProps.v | Closed under the global context |
| C226_boxes | PlotProps.v | Closed under the global context |
| C227_images | ViewProps.v | Closed under the global context |
| C227_once | ViewProps.v | Closed under the global context |
| C228_camera | ViewProps.v | Closed under the global context |
| C229_lines | ViewProps.v | Closed under the global context |
| C230_aligned | ViewProps.v | Closed under the global context |
| C230_length | ViewProps.v | Closed under the global context |
| C231_shown | ViewProps.v | Closed under the global context |
| C231_initial | ViewProps.v | Closed under the global context |
| C231_below | ViewProps.v | Closed under the global context |
| C232_hidden_refuted | ViewProps.v | Closed under the global context |
| C233_ordered | ViewProps.v | Closed under the global context |
| C233_iso | ViewProps.v | Closed under the global context |
| C233_taken | ViewProps.v | Closed under the global context |
| C233_start | ViewProps.v | Closed under the global context |
| C234_range_refuted | ViewProps.v | Closed under the global context |
| C235_cut | ViewProps.v | Closed under the global context |
| C235_near | ViewProps.v | Closed under the global context |
| C236_sliced_refuted | ViewProps.v | Closed under the global context |
| C237_fits_refuted | ViewProps.v | Closed under the global context |
| C238_fits | ViewProps.v | Closed under the global context |
| C239_visible | ViewProps.v | Closed under the global context |
| C239_colors | ViewProps.v | Closed under the global context |
| C239_radii | ViewProps.v | Closed under the global context |
| C239_start | ViewProps.v | Closed under the global context |
| C239_positive | ViewProps.v | Closed under the global context |
| C239_table | ViewProps.v | Closed under the global context |
| C240_hidden_refuted | ViewProps.v | Closed under the global context |
| C241_least | OverProps.v | Closed under the global context |
| C241_exact | OverProps.v | Closed under the global context |
| C241_linear | OverProps.v | Closed under the global context |
| C242_pointers | OverProps.v | Closed under the global context |
| C242_climb | OverProps.v | Closed under the global context |
| C243_unpack_refuted | OverProps.v | Closed under the global context |
| C244_basins | GuiProps.v | Closed under the global context |
| C244_start | GuiProps.v | Closed under the global context |
| C244_atoms | GuiProps.v | Closed under the global context |
| C244_parent | GuiProps.v | Closed under the global context |
| C244_child | GuiProps.v | Closed under the global context |
| C245_commit | GuiProps.v | Closed under the global context |
| C245_species | GuiProps.v | Closed under the global context |
| C245_colors | GuiProps.v | Closed under the global context |
| C245_species_color | GuiProps.v | Closed under the global context |
| C246_same_refuted | GuiProps.v | Closed under the global context |
| C247_edit | GuiProps.v | Closed under the global context |
| C247_edit_reference | GuiProps.v | Closed under the global context |
| C247_calm | GuiProps.v | Closed under the global context |
| C248_blank_refuted | GuiProps.v | Closed under the global context |
| C249_error_refuted | GuiProps.v | Closed under the global context |
| C249_edit_refuted | GuiProps.v | Closed under the global context |
| C250_values | GuiProps.v | Closed under the global context |
| C250_named | GuiProps.v | Closed under the global context |
| C250_ending | GuiProps.v | Closed under the global context |
| C251_charge_refuted | GuiProps.v | Closed under the global context |
| C251_witness_refuted | GuiProps.v | Closed under the global context |
| C252_cancel_refuted | GuiProps.v | Closed under the global context |
| C252_directory_refuted | GuiProps.v | Closed under the global context |
| C253_answers | CacheProps.v | Closed under the global context |
| C253_order | CacheProps.v | Closed under the global context |
| C254_types_refuted | CacheProps.v | Closed under the global context |
| C255_failed_refuted | CacheProps.v | Closed under the global context |
| C256_down_refuted | CacheProps.v | Closed under the global context |
| C257_mean_refuted | CacheProps.v | Closed under the global context |
| C258_spin | CacheProps.v | Closed under the global context |
| C259_mean | CacheProps.v | Closed under the global context |
| C260_before | CacheProps.v | Closed under the global context |
| C261_order | BobjProps.v | Closed under the global context |
| C261_settings | BobjProps.v | Closed under the global context |
| C262_one | BobjProps.v | Closed under the global context |
| C263_method_refuted | BobjProps.v | Closed under the global context |
| C264_again_refuted | BobjProps.v | Closed under the global context |
| C265_failing | BobjProps.v | Closed under the global context |
| C266_pruned | PruneProps.v | Closed under the global context |
| C266_runs | PruneProps.v | Closed under the global context |
| C267_combined | PruneProps.v | Closed under the global context |
| C267_built | PruneProps.v | Closed under the global context |
| C268_fresh | SymProps.v | Closed under the global context |
| C268_pair | SymProps.v | Closed under the global context |
| C269_ignored | SymProps.v | Closed under the global context |
| C269_settings_used_refuted | SymProps.v | Closed under the global context |
| C270_data_current_refuted | SymProps.v | Closed under the global context |
| C271_failure_repeats_refuted | SymProps.v | Closed under the global context |
| C272_nearest_refuted | MarkProps.v | Closed under the global context |
| C273_kinds | MarkProps.v | Closed under the global context |
| C274_unnoticed | SymProps.v | Closed under the global context |
| C274_edit_noticed_refuted | SymProps.v | Closed under the global context |
| C275_labeler | KwProps.v | Closed under the global context |
| C275_accepts | KwProps.v | Closed under the global context |
| C276_spin | KwProps.v | Closed under the global context |
| C276_badelf | KwProps.v | Closed under the global context |
| C276_spin_badelf | KwProps.v | Closed under the global context |
| C277_ignored | KwProps.v | Closed under the global context |
| C277_reported_refuted | KwProps.v | Closed under the global context |
| C278_no_effect | KwProps.v | Closed under the global context |
| C278_depth_used_refuted | KwProps.v | Closed under the global context |
| C279_bader | SummProps.v | Closed under the global context |
| C280_states | SummProps.v | Closed under the global context |
| C280_written_refuted | SummProps.v | Closed under the global context |
| C281_badelf | SummProps.v | Closed under the global context |
| C282_spin | SummProps.v | Closed under the global context |
| C283_lost | SummProps.v | Closed under the global context |
| C283_reported_refuted | SummProps.v | Closed under the global context |
| C284_labeler | SummProps.v | Closed under the global context |
| C284_spin | SummProps.v | Closed under the global context |
| C285_used_refuted | SummProps.v | Closed under the global context |
| C286_unreported | SummProps.v | Closed under the global context |
| C286_complete_refuted | SummProps.v | Closed under the global context |
