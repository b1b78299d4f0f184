{
 "claims": [
  {
   "property": "C01",
   "status": "proved",
   "theorems": [
    "C01_wrap_window",
    "C01_neighbour_in_range",
    "C01_shift_reconstructs",
    "C01_flat_bijection"
   ],
   "note": "Wrapping is a single if/elif: exact characterisation of the window on which it is correct."
  },
  {
   "property": "C02",
   "status": "proved",
   "theorems": [
    "C02_best_neighbor",
    "C02_stays_iff_maximum"
   ],
   "note": "Exact rational slopes; neighbour list with unit offsets and positive distances."
  },
  {
   "property": "C03",
   "status": "proved",
   "theorems": [
    "C03_maxima_exact",
    "C03_minima_exact",
    "C03_maximum_exists",
    "C03_argwhere"
   ],
   "note": "All schedules of the prange loop; maxima, minima and np.argwhere order."
  },
  {
   "property": "C04",
   "status": "proved",
   "theorems": [
    "C04_roots",
    "C04_end_unique"
   ],
   "note": "Proved for every acyclic table without pointers into the vacuum; the claim for tables with such pointers is C122 (refuted)."
  },
  {
   "property": "C05",
   "status": "proved",
   "theorems": [
    "C05_ongrid",
    "C05_ascent_terminates",
    "C05_run"
   ],
   "note": "On-grid method from given initial labels, and the whole run (maxima search, merging, ascent, compaction) for every prange schedule."
  },
  {
   "property": "C06",
   "status": "proved",
   "theorems": [
    "C06_dense_labels"
   ],
   "note": "np.unique(return_inverse) and the -1 shift."
  },
  {
   "property": "C07",
   "status": "proved",
   "theorems": [
    "C07_basin_content",
    "C07_conservation",
    "C07_run_conserves"
   ],
   "note": "Exact rational arithmetic; labels below the number of basins (shown to hold for the whole on-grid run)."
  },
  {
   "property": "C08",
   "status": "proved",
   "theorems": [
    "C08_aligned_iff_sorted",
    "C08_weight_aligned"
   ],
   "note": "Exact condition for alignment, and alignment for the weight method. The claim that the on-grid and near-grid pipelines always satisfy the condition is C123 (refuted)."
  },
  {
   "property": "C09",
   "status": "proved",
   "theorems": [
    "C09_history",
    "C09_root_mask_history",
    "C09_object_groups",
    "C09_unseen_find_raises"
   ],
   "note": "Plain parent array, root mask and UnionFind object; a find of an element never mentioned raises (finding)."
  },
  {
   "property": "C10",
   "status": "proved",
   "theorems": [
    "C10_shift_history",
    "C10_union_step"
   ],
   "note": "Unbounded integer offsets (the caller uses int8); the size array may hold anything."
  },
  {
   "property": "C11",
   "status": "proved",
   "theorems": [
    "C11_conserves"
   ],
   "note": "Whole run from maxima search to totals; exact rational arithmetic; fewer than 10^6 maxima."
  },
  {
   "property": "C12",
   "status": "proved",
   "theorems": [
    "C12_labels"
   ],
   "note": "Label within 3e-6 of the largest share when at most 26 basins share the voxel (the program keeps only the 26 largest)."
  },
  {
   "property": "C13",
   "status": "proved",
   "theorems": [
    "C13_gradients",
    "C13_climb",
    "C13_pass",
    "C13_run",
    "C13_conserves"
   ],
   "note": "Whole near-grid run incl. concurrent refinement, every interleaving. dims >= 2, vacuum strictly below non-vacuum in the reference grid (the claim without it is C124, refuted), exact rational gradients."
  },
  {
   "property": "C14",
   "status": "proved",
   "theorems": [
    "C14_conserves",
    "C14_shares"
   ],
   "note": "Whole run, charge and volume. Each of the three conditions is necessary: C125, C126, C127 (refuted)."
  },
  {
   "property": "C15",
   "status": "proved",
   "theorems": [
    "C15_edges",
    "C15_feature_edges"
   ],
   "note": "get_edges and get_feature_edges, all prange schedules."
  },
  {
   "property": "C16",
   "status": "proved",
   "theorems": [
    "C16_assignment",
    "C16_orthogonal_nearest_image"
   ],
   "note": "Assignment and totals for all cells; the wrapped distance is the distance to the nearest periodic image for orthogonal cells. The claim for skewed cells is C128 (refuted)."
  },
  {
   "property": "C17",
   "status": "proved",
   "theorems": [
    "C17_never_stale",
    "C17_order_free",
    "C17_atom_avg"
   ],
   "note": "Getter/setter state machine of Bader with abstract numerics. Exceptions: C129 (whether atom_avg_surface_distances raises depends on the history) and C130 (vacuum_tol=True in the setter), both refuted."
  },
  {
   "property": "C18",
   "status": "proved",
   "theorems": [
    "C18_vacuum"
   ],
   "note": "Mask, downward closure and count after any history. The meaning of True in the setter is C130 (refuted)."
  },
  {
   "property": "C19",
   "status": "proved",
   "theorems": [
    "C19_surface"
   ],
   "note": "Exact minimum and mean over the basin's own surface voxels when every edge voxel belongs to a basin. With vacuum edge voxels the claim is C131 (refuted)."
  },
  {
   "property": "C20",
   "status": "proved",
   "theorems": [
    "C20_merging",
    "C20_profile_test"
   ],
   "note": "Every grid whose vacuum lies strictly below the rest, every tie order of argsort and every interpolation criterion that does not raise. Without these: C132, C133 (refuted)."
  },
  {
   "property": "C21",
   "status": "proved",
   "theorems": [
    "C21_round_trips",
    "C21_cartesian",
    "C21_singular"
   ],
   "note": "All six round trips, exact arithmetic; the inverse raises exactly for singular cells."
  },
  {
   "property": "C22",
   "status": "proved",
   "theorems": [
    "C22_neighbors",
    "C22_once",
    "C22_distances",
    "C22_symmetric",
    "C22_faces",
    "C22_faces_symmetric",
    "C22_images"
   ],
   "note": "Complete, duplicate-free, symmetric, true lengths; the 27 translations as an exact permutation with the documented order."
  },
  {
   "property": "C23",
   "status": "proved",
   "theorems": [
    "C23_label",
    "C23_structure",
    "C23_scipy"
   ],
   "note": "scipy.ndimage.label is a contract (C23_scipy gives a labelling satisfying it for both neighbourhoods); the while loop has fuel above the number of voxels"
  },
  {
   "property": "C24",
   "status": "proved",
   "theorems": [
    "C24_caches",
    "C24_made",
    "C24_neighbours",
    "C24_supercell",
    "C24_copy",
    "C24_dists"
   ],
   "note": "Object state with caches as option fields, histories as lists of operations. Structure is the lattice matrix; spline and zoom are oracles; arrays added only when shapes agree."
  },
  {
   "property": "C25",
   "status": "proved",
   "theorems": [
    "C25_trilinear",
    "C25_grid_points",
    "C25_bounded",
    "C25_periodic",
    "C25_nearest",
    "C25_points",
    "C25_slice"
   ],
   "note": "Trilinear blend, grid-point exactness, bounds and periodicity for coordinates up to one cell outside the unit cell. Beyond: C134; nearest-point interpolation halfway between voxels on odd grids: C135 (both refuted)."
  },
  {
   "property": "C26",
   "status": "proved",
   "theorems": [
    "C26_weights",
    "C26_blend",
    "C26_bounded",
    "C26_constant",
    "C26_periodic"
   ],
   "note": "Spline weights (all moments), blend, bounds, constants and exact periodicity for all coordinates."
  },
  {
   "property": "C27",
   "status": "proved",
   "theorems": [
    "C27_fit",
    "C27_refine",
    "C27_symmetric",
    "C27_maxima"
   ],
   "note": "Range, value and displacement bound for every exact linear solver; symmetric neighbourhoods leave a grid position unchanged. The claims about a voxel edge and about inputs off the grid are C136 and C137 (refuted)."
  },
  {
   "property": "C28",
   "status": "proved",
   "theorems": [
    "C28_roundtrip",
    "C28_total",
    "C28_exact"
   ],
   "note": "C28_roundtrip (all shapes, partial last lines, both arrays, augmentation lines), C28_total, C28_exact"
  },
  {
   "property": "C29",
   "status": "proved",
   "theorems": [
    "C29_field"
   ],
   "note": "C29_field; the excluded values are C93 and C94"
  },
  {
   "property": "C30",
   "status": "proved",
   "theorems": [
    "C30_roundtrip",
    "C30_origin",
    "C30_figures"
   ],
   "note": "C30_roundtrip, C30_origin (with an origin, atoms come back relative to it), C30_figures; exact rationals"
  },
  {
   "property": "C31",
   "status": "proved",
   "theorems": [
    "C31_unique",
    "C31_keep",
    "C31_ignore"
   ],
   "note": "C31_unique, C31_keep, C31_ignore"
  },
  {
   "property": "C32",
   "status": "proved",
   "theorems": [
    "C32_dists",
    "C32_right_angles",
    "C32_nearest",
    "C32_covalent",
    "C32_covalent_fails",
    "C32_all"
   ],
   "note": "C32_dists, C32_right_angles, C32_nearest, C32_covalent, C32_covalent_fails, C32_all; exact rationals, square root and arc cosine abstract"
  },
  {
   "property": "C33",
   "status": "proved",
   "theorems": [
    "C33_perpendicular",
    "C33_unit",
    "C33_zero"
   ],
   "note": "C33_perpendicular for any square root, C33_unit for one with a relative error, C33_zero: indices (0,0,0) fail"
  },
  {
   "property": "C34",
   "status": "proved",
   "theorems": [
    "C34_disjoint",
    "C34_one_file_per_index",
    "C34_sum",
    "C34_partition",
    "C34_integral",
    "C34_species"
   ],
   "note": "Files of basins, atoms and species: disjoint, complete, summed variant, integral equals the reported charge. Badelf.write_atom_volumes is C138 (refuted)."
  },
  {
   "property": "C35",
   "status": "proved",
   "theorems": [
    "C35_groups",
    "C35_dims",
    "C35_identity"
   ],
   "note": "Dimensionality is an arbitrary function of value and lowest basin (its computation from the grid is not part of this model). Connection values are below 1e12."
  },
  {
   "property": "C36",
   "status": "proved",
   "theorems": [
    "C36_forest"
   ],
   "note": "Domains with equal basins and different dimensionality count as contained in each other."
  },
  {
   "property": "C37",
   "status": "proved",
   "theorems": [
    "C37_saddles",
    "C37_missing",
    "C37_sound",
    "C37_linked"
   ],
   "note": "find_domain_connections for all grids, labels, masks and data (up to 65536 basins, values above -1e300)."
  },
  {
   "property": "C38",
   "status": "proved",
   "theorems": [
    "C38_total",
    "C38_rank",
    "C38_outside",
    "C38_groups",
    "C38_fresh"
   ],
   "note": "exact arithmetic; accumulated offsets within 250000 cells; steps that join two winding parts are C120"
  },
  {
   "property": "C39",
   "status": "proved",
   "theorems": [
    "C39_empty",
    "C39_add",
    "C39_remove",
    "C39_remove_root",
    "C39_collapse",
    "C39_branches",
    "C39_leaves",
    "C39_prune",
    "C39_combine",
    "C39_history",
    "C39_build"
   ],
   "note": "Add, remove, collapse, pruning and combining passes and any history of them keep the graph well formed; no basin is lost unless an irreducible node is removed. The passes may raise (C60)."
  },
  {
   "property": "C40",
   "status": "proved",
   "theorems": [
    "C40_round_trip",
    "C40_stable"
   ],
   "note": "For every well formed graph whose nodes are infinite exactly when their dimensionality is positive. The JSON text and the structure are handled by external libraries."
  },
  {
   "property": "C41",
   "status": "proved",
   "theorems": [
    "C41_points",
    "C41_rule",
    "C41_inside",
    "C41_all",
    "C41_classes"
   ],
   "note": "Interpolated value and nearest label are arbitrary functions of the position; np.unique is represented by its contract; fewer than 10^6 points. The symmetry canonicalisation of bonds is external to the theorem (any keys)."
  },
  {
   "property": "C42",
   "status": "proved",
   "theorems": [
    "C42_volume",
    "C42_meaning",
    "C42_range",
    "C42_monotone",
    "C42_both_sides",
    "C42_one_side"
   ],
   "note": "Volume defined as the limit of Riemann sums over slices; numbers exact rationals, final rounding to 12 digits modelled."
  },
  {
   "property": "C43",
   "status": "proved",
   "theorems": [
    "C43_assigned",
    "C43_only",
    "C43_position",
    "C43_grouped",
    "C43_totals"
   ],
   "note": ""
  },
  {
   "property": "C44",
   "status": "proved",
   "theorems": [
    "C44_fractions",
    "C44_conserved",
    "C44_shares",
    "C44_whole"
   ],
   "note": ""
  },
  {
   "property": "C45",
   "status": "proved",
   "theorems": [
    "C45_labels",
    "C45_dimension",
    "C45_sound",
    "C45_monotone",
    "C45_search",
    "C45_cutoffs"
   ],
   "note": ""
  },
  {
   "property": "C46",
   "status": "proved",
   "theorems": [
    "C46_shares",
    "C46_conserved"
   ],
   "note": "Exact rationals; the final rounding to ten digits is omitted. Weights must not sum to zero and distances divided by must not be zero."
  },
  {
   "property": "C47",
   "status": "proved",
   "theorems": [
    "C47_labels",
    "C47_conserved",
    "C47_parts"
   ],
   "note": "Requires that every basin has an atom and that no basin belongs to two features (C36/C39)."
  },
  {
   "property": "C48",
   "status": "proved",
   "theorems": [
    "C48_sum",
    "C48_shared",
    "C48_alone",
    "C48_routes",
    "C48_names",
    "C48_aligned",
    "C48_atoms",
    "C48_electrides",
    "C48_equal",
    "C48_rounded",
    "C48_total",
    "C48_total_listed"
   ],
   "note": "exact rationals; comparison of coordinates arbitrary, reflexive where needed"
  },
  {
   "property": "C49",
   "status": "proved",
   "theorems": [
    "C49_charge",
    "C49_elf",
    "C49_linear",
    "C49_keys",
    "C49_sum"
   ],
   "note": "pymatgen's spin_data is modelled from its documentation: halves of sum and difference, stored at the first read."
  },
  {
   "property": "C50",
   "status": "partial",
   "theorems": [
    "C50_equivalent_refuted"
   ],
   "note": "false: after a fourfold rotation about x the bonds (1,-2,0) and (1,0,-2) keep different forms, because the comparison is by components instead of lexicographic; see C115 for what holds"
  },
  {
   "property": "C51",
   "status": "proved",
   "theorems": [
    "C51_radius",
    "C51_orthogonal"
   ],
   "note": "Sound, duplicate-free and sorted for all cells; complete for orthogonal cells with positive row lengths. Completeness for skewed cells is C139 (refuted)."
  },
  {
   "property": "C52",
   "status": "proved",
   "theorems": [
    "C52_mean",
    "C52_invariant",
    "C52_weighted",
    "C52_rounding"
   ],
   "note": "Mean modulo the lattice, independence of translations and order, and weighted mean for clusters strictly within half a cell of each other. At exactly half a cell: C140; groups with a false flat maximum: C141 (both refuted)."
  },
  {
   "property": "C53",
   "status": "proved",
   "theorems": [
    "C53_concurrent_compression",
    "C53_schedule_independent"
   ],
   "note": "Single reads and writes are atomic; other iterations interleave arbitrarily."
  },
  {
   "property": "C54",
   "status": "proved",
   "theorems": [
    "C54_flux_rule",
    "C54_unique"
   ],
   "note": "Proved when the stale `label` never coincides with a neighbour's label and nothing is truncated, with uniqueness. The claim without this condition is C142 (refuted)."
  },
  {
   "property": "C55",
   "status": "proved",
   "theorems": [
    "C55_completes"
   ],
   "note": "Proved for positive charges and low vacuum. Zero charges: C143; high vacuum voxels: C144 (both refuted)."
  },
  {
   "property": "C56",
   "status": "proved",
   "theorems": [
    "C56_entries",
    "C56_default"
   ],
   "note": "Entries for all sizes; centred box for size 1. Larger sizes: C145 (refuted)."
  },
  {
   "property": "C57",
   "status": "proved",
   "theorems": [
    "C57_bound",
    "C57_corner"
   ],
   "note": "For every cell: attained at a corner and bounding the whole voxel; the code omits one corner, which is harmless by symmetry."
  },
  {
   "property": "C58",
   "status": "proved",
   "theorems": [
    "C58_upper_value"
   ],
   "note": "Proved for domains with children and for non-root single basins. Roots without children: C146 (refuted)."
  },
  {
   "property": "C59",
   "status": "partial",
   "theorems": [
    "C59_linked_refuted"
   ],
   "note": "Refuted for non-positive data (the second pass starts from 0 and drops zeros); for positive data it holds (C37_linked)."
  },
  {
   "property": "C60",
   "status": "partial",
   "theorems": [
    "C60_roots_refuted",
    "C60_depth_refuted"
   ],
   "note": "Refuted: two reducible roots (second has no parent) and a root of depth zero (division by zero)."
  },
  {
   "property": "C61",
   "status": "partial",
   "theorems": [
    "C61_stale_refuted"
   ],
   "note": "Refuted: removing a node changes the parent's max_value but not its cached depth."
  },
  {
   "property": "C62",
   "status": "partial",
   "theorems": [
    "C62_overlap_refuted"
   ],
   "note": "Refuted for a node that is its parent's only child."
  },
  {
   "property": "C63",
   "status": "partial",
   "theorems": [
    "C63_features_refuted",
    "C63_once_refuted"
   ],
   "note": "Refuted: feature_type, nearest_atom_sphere and dist_beyond_atom are not written; from_dict removes the entry 'nodes' from its argument."
  },
  {
   "property": "C64",
   "status": "partial",
   "theorems": [
    "C64_nearest_refuted",
    "C64_alone_refuted"
   ],
   "note": "Refuted: argmin over the coordinated distances is used as an atom index; for features without coordinated atoms argmin of an empty array raises."
  },
  {
   "property": "C65",
   "status": "partial",
   "theorems": [
    "C65_pauling_refuted",
    "C65_proportional"
   ],
   "note": "Refuted: weights are proportional to electronegativity (C65_proportional)."
  },
  {
   "property": "C66",
   "status": "partial",
   "theorems": [
    "C66_tuple_refuted"
   ],
   "note": "Refuted: with all three return flags off a bare array is returned."
  },
  {
   "property": "C67",
   "status": "partial",
   "theorems": [
    "C67_ends_refuted"
   ],
   "note": "Refuted: of two maxima equally far from the middle the first one met is taken."
  },
  {
   "property": "C68",
   "status": "partial",
   "theorems": [
    "C68_unlabelled_refuted"
   ],
   "note": "Refuted: a missing label at the atom's own position makes the atom's points foreign and the radius one half."
  },
  {
   "property": "C69",
   "status": "partial",
   "theorems": [
    "C69_zero_normal_refuted"
   ],
   "note": "Refuted: for d < 0 the code answers 0."
  },
  {
   "property": "C70",
   "status": "proved",
   "theorems": [
    "C70_translations",
    "C70_volume",
    "C70_kept"
   ],
   "note": "A site number not below the number of sites is an out-of-range write, excluded by hypothesis."
  },
  {
   "property": "C71",
   "status": "partial",
   "theorems": [
    "C71_whole_cell_refuted"
   ],
   "note": "Refuted: one atom in the middle of a simple cubic cell keeps no plane."
  },
  {
   "property": "C72",
   "status": "proved",
   "theorems": [
    "C72_surface"
   ],
   "note": ""
  },
  {
   "property": "C73",
   "status": "partial",
   "theorems": [
    "C73_tied_refuted"
   ],
   "note": "Refuted: a voxel whose best shares are equal is given away with the shares of another voxel."
  },
  {
   "property": "C74",
   "status": "partial",
   "theorems": [
    "C74_label_refuted"
   ],
   "note": "Refuted: the label is the site that is furthest behind in charge, not the largest share."
  },
  {
   "property": "C75",
   "status": "partial",
   "theorems": [
    "C75_ten_refuted"
   ],
   "note": "Refuted: with more than ten sites only the ten smallest shares are kept."
  },
  {
   "property": "C76",
   "status": "partial",
   "theorems": [
    "C76_lost_refuted"
   ],
   "note": "Refuted: translations after the last shell boundary are never looked at, and the charge is lost."
  },
  {
   "property": "C77",
   "status": "partial",
   "theorems": [
    "C77_voronelf_refuted"
   ],
   "note": "Refuted: voronelf does not clear the labels first."
  },
  {
   "property": "C78",
   "status": "proved",
   "theorems": [
    "C78_cubic"
   ],
   "note": ""
  },
  {
   "property": "C79",
   "status": "partial",
   "theorems": [
    "C79_edges_refuted"
   ],
   "note": "Refuted for an orthorhombic cell: volumes are measured in fractional coordinates with the direction of the bond as normal."
  },
  {
   "property": "C80",
   "status": "partial",
   "theorems": [
    "C80_five_refuted"
   ],
   "note": "Refuted: a count of five appends nothing and max of the empty list raises."
  },
  {
   "property": "C81",
   "status": "partial",
   "theorems": [
    "C81_stair_refuted"
   ],
   "note": "Refuted: a staircase with period (2,1,0) has no connected pair in the supercell."
  },
  {
   "property": "C82",
   "status": "partial",
   "theorems": [
    "C82_highest_refuted"
   ],
   "note": "Refuted: the highest dimensionality is listed with 0 although it exists at higher cutoffs."
  },
  {
   "property": "C83",
   "status": "partial",
   "theorems": [
    "C83_none_refuted"
   ],
   "note": "Refuted: [0] is returned."
  },
  {
   "property": "C84",
   "status": "partial",
   "theorems": [
    "C84_edge_refuted"
   ],
   "note": "Refuted: rounding gives the index n and indexing raises."
  },
  {
   "property": "C85",
   "status": "partial",
   "theorems": [
    "C85_full_refuted"
   ],
   "note": "Refuted for every grid shape"
  },
  {
   "property": "C86",
   "status": "partial",
   "theorems": [
    "C86_kept",
    "C86_coeffs_refuted"
   ],
   "note": "Refuted with witness history; general form C86_kept."
  },
  {
   "property": "C87",
   "status": "partial",
   "theorems": [
    "C87_volume",
    "C87_volume_refuted"
   ],
   "note": "Refuted with witness; exact factor in C87_volume."
  },
  {
   "property": "C88",
   "status": "partial",
   "theorems": [
    "C88_spin",
    "C88_spin_refuted"
   ],
   "note": "Refuted with witness; general form C88_spin."
  },
  {
   "property": "C89",
   "status": "partial",
   "theorems": [
    "C89_split",
    "C89_split_refuted"
   ],
   "note": "Refuted with witness; general form C89_split."
  },
  {
   "property": "C90",
   "status": "partial",
   "theorems": [
    "C90_regrid",
    "C90_regrid_refuted"
   ],
   "note": "Refuted with witness; general form C90_regrid."
  },
  {
   "property": "C91",
   "status": "partial",
   "theorems": [
    "C91_dists_refuted"
   ],
   "note": "Refuted with a skewed 2D lattice."
  },
  {
   "property": "C92",
   "status": "partial",
   "theorems": [
    "C92_augmentation_refuted"
   ],
   "note": "Refuted with witness."
  },
  {
   "property": "C93",
   "status": "partial",
   "theorems": [
    "C93_carry_refuted"
   ],
   "note": "false: 0.999999999999 is written as 0.100000000000E+00"
  },
  {
   "property": "C94",
   "status": "partial",
   "theorems": [
    "C94_width_refuted"
   ],
   "note": "false: a grid of six values, one of them 1e-120, is written but reading it calls the debugger"
  },
  {
   "property": "C95",
   "status": "partial",
   "theorems": [
    "C95_augmentation_refuted"
   ],
   "note": "false: the text is written one character per line"
  },
  {
   "property": "C96",
   "status": "partial",
   "theorems": [
    "C96_noncollinear_refuted"
   ],
   "note": "false: five arrays are written and only the total is read back"
  },
  {
   "property": "C97",
   "status": "partial",
   "theorems": [
    "C97_vasp4_refuted"
   ],
   "note": "false: without symbols every header line is taken for the one before"
  },
  {
   "property": "C98",
   "status": "partial",
   "theorems": [
    "C98_newline_refuted"
   ],
   "note": "false: the block is taken to end after the end of the file"
  },
  {
   "property": "C99",
   "status": "partial",
   "theorems": [
    "C99_cartesian_refuted",
    "C99_volume_refuted"
   ],
   "note": "false: both files are read the same; the lattice is multiplied by the negative number"
  },
  {
   "property": "C100",
   "status": "partial",
   "theorems": [
    "C100_origin_refuted"
   ],
   "note": "false: the origin is subtracted when reading but not added when writing"
  },
  {
   "property": "C101",
   "status": "partial",
   "theorems": [
    "C101_uniform_refuted"
   ],
   "note": "false: a file of ones in a cell of 123.4 cubic Bohr is read as 100 everywhere"
  },
  {
   "property": "C102",
   "status": "partial",
   "theorems": [
    "C102_order_refuted"
   ],
   "note": "false: a 2x1x2 file is read transposed"
  },
  {
   "property": "C103",
   "status": "partial",
   "theorems": [
    "C103_origin_refuted"
   ],
   "note": "false: it is multiplied by 1.88973"
  },
  {
   "property": "C104",
   "status": "partial",
   "theorems": [
    "C104_orbital_refuted"
   ],
   "note": "false: an exception is raised"
  },
  {
   "property": "C105",
   "status": "proved",
   "theorems": [
    "C105_round",
    "C105_exact",
    "C105_idempotent",
    "C105_infer"
   ],
   "note": "exact rationals"
  },
  {
   "property": "C106",
   "status": "partial",
   "theorems": [
    "C106_ignore_refuted"
   ],
   "note": "false: labels X, X, X_1 become X_1, X_2, X_1"
  },
  {
   "property": "C107",
   "status": "partial",
   "theorems": [
    "C107_direction_refuted"
   ],
   "note": "false: (-1,1,1) in a cubic cell gives the opposite vector"
  },
  {
   "property": "C108",
   "status": "proved",
   "theorems": [
    "C108_wrapped",
    "C108_kept"
   ],
   "note": "exact rationals"
  },
  {
   "property": "C109",
   "status": "partial",
   "theorems": [
    "C109_mutates_refuted"
   ],
   "note": "false: the array is reduced in place"
  },
  {
   "property": "C110",
   "status": "partial",
   "theorems": [
    "C110_labels_refuted"
   ],
   "note": "false: the setter only checks the length"
  },
  {
   "property": "C111",
   "status": "partial",
   "theorems": [
    "C111_merge_refuted"
   ],
   "note": "false: the third axis of a two-dimensional array is looked at, an IndexError"
  },
  {
   "property": "C112",
   "status": "partial",
   "theorems": [
    "C112_skew_refuted"
   ],
   "note": "false for skew cells"
  },
  {
   "property": "C113",
   "status": "partial",
   "theorems": [
    "C113_far_refuted"
   ],
   "note": "false: distances from 100 on are ignored and the entries stay uninitialised"
  },
  {
   "property": "C114",
   "status": "partial",
   "theorems": [
    "C114_on_atom_refuted"
   ],
   "note": "false: a point on an atom raises a ZeroDivisionError"
  },
  {
   "property": "C115",
   "status": "proved",
   "theorems": [
    "C115_opposite",
    "C115_translated",
    "C115_close",
    "C115_image",
    "C115_minimal",
    "C115_least",
    "C115_sites",
    "C115_find",
    "C115_bonds"
   ],
   "note": "exact rationals"
  },
  {
   "property": "C116",
   "status": "proved",
   "theorems": [
    "C116_tolerance",
    "C116_row",
    "C116_rows"
   ],
   "note": "exact symmetry and rationals, results rounded to 12 digits as in the code"
  },
  {
   "property": "C117",
   "status": "partial",
   "theorems": [
    "C117_half_refuted"
   ],
   "note": "false: (1/2,1/10,0) and (3/2,1/10,0)"
  },
  {
   "property": "C118",
   "status": "partial",
   "theorems": [
    "C118_reverse_refuted"
   ],
   "note": "false: with a screw axis a bond and its reverse have the same form and flag 0, so both ends get the same fraction"
  },
  {
   "property": "C119",
   "status": "partial",
   "theorems": [
    "C119_dist_refuted"
   ],
   "note": "false: it is the distance of the dividing point, always equal to the radius"
  },
  {
   "property": "C120",
   "status": "partial",
   "theorems": [
    "C120_merge_refuted"
   ],
   "note": "false: cycle lists of joined parts are concatenated, two lines and a bridge are reported as two-dimensional, two planes as four-dimensional"
  },
  {
   "property": "C121",
   "status": "partial",
   "theorems": [
    "C121_equal_spin_refuted"
   ],
   "note": "false: only the reference grids are compared; if they agree to 1e-4 the spin-up charge is counted twice. C48_total gives the cases where the claim holds"
  },
  {
   "property": "C122",
   "status": "partial",
   "theorems": [
    "C122_vacuum_pointer_refuted"
   ],
   "note": "Refuted with a witness. numpy index -1 reads the last voxel of the array."
  },
  {
   "property": "C123",
   "status": "partial",
   "theorems": [
    "C123_positions_swapped_refuted"
   ],
   "note": "Refuted with a witness. Positions are listed in union-find root order."
  },
  {
   "property": "C124",
   "status": "partial",
   "theorems": [
    "C124_vacuum_hang_refuted"
   ],
   "note": "Refuted with a witness. The on-grid fallback steps into the vacuum and back for ever."
  },
  {
   "property": "C125",
   "status": "partial",
   "theorems": [
    "C125_vacuum_scale_refuted"
   ],
   "note": "Refuted with a witness. The vacuum totals are returned unscaled."
  },
  {
   "property": "C126",
   "status": "partial",
   "theorems": [
    "C126_order_refuted"
   ],
   "note": "Refuted with a witness. Shares are passed to voxels that were already processed."
  },
  {
   "property": "C127",
   "status": "partial",
   "theorems": [
    "C127_edge_maximum_refuted"
   ],
   "note": "Refuted with a witness. The charge of such an edge voxel is handed to nobody."
  },
  {
   "property": "C128",
   "status": "partial",
   "theorems": [
    "C128_nearest_skewed_refuted"
   ],
   "note": "Refuted with a witness. Wrapped fractional differences are not nearest images in a skewed cell."
  },
  {
   "property": "C129",
   "status": "partial",
   "theorems": [
    "C129_atom_avg_refuted"
   ],
   "note": "Refuted with a witness. Raises on a new object, returns after atom_min_surface_distances has been read."
  },
  {
   "property": "C130",
   "status": "partial",
   "theorems": [
    "C130_vacuum_true_refuted",
    "C130_true_setter_refuted"
   ],
   "note": "Refuted with a witness. The setter stores True, that is 1."
  },
  {
   "property": "C131",
   "status": "partial",
   "theorems": [
    "C131_vacuum_refuted"
   ],
   "note": "Refuted with a witness. Label -1 edge voxels are counted for the last basin."
  },
  {
   "property": "C132",
   "status": "partial",
   "theorems": [
    "C132_vacuum_hang_refuted"
   ],
   "note": "Refuted with a witness. The equally high neighbour is a vacuum voxel."
  },
  {
   "property": "C133",
   "status": "partial",
   "theorems": [
    "C133_profile_raises_refuted"
   ],
   "note": "Refuted with a witness. Reads past the end of its lists."
  },
  {
   "property": "C134",
   "status": "partial",
   "theorems": [
    "C134_far_refuted"
   ],
   "note": "Refuted with a witness. Wraps only once, so it reads outside the array two cells away."
  },
  {
   "property": "C135",
   "status": "partial",
   "theorems": [
    "C135_nearest_half_refuted"
   ],
   "note": "Refuted with a witness. Halves are rounded to even."
  },
  {
   "property": "C136",
   "status": "partial",
   "theorems": [
    "C136_step_refuted"
   ],
   "note": "Refuted with a witness. The clamp divides columns instead of rows of the lattice."
  },
  {
   "property": "C137",
   "status": "partial",
   "theorems": [
    "C137_offgrid_refuted"
   ],
   "note": "Refuted with a witness. The offset of the input is kept."
  },
  {
   "property": "C138",
   "status": "partial",
   "theorems": [
    "C138_badelf_refuted"
   ],
   "note": "Refuted with a witness. The mask is inverted and the files accumulate."
  },
  {
   "property": "C139",
   "status": "partial",
   "theorems": [
    "C139_skewed_refuted"
   ],
   "note": "Refuted with a witness. The per-axis bound misses offsets in skewed cells."
  },
  {
   "property": "C140",
   "status": "partial",
   "theorems": [
    "C140_half_refuted"
   ],
   "note": "Refuted with a witness. Halves are rounded to even."
  },
  {
   "property": "C141",
   "status": "partial",
   "theorems": [
    "C141_misaligned_refuted"
   ],
   "note": "Refuted with a witness. Weights and coordinates are misaligned."
  },
  {
   "property": "C142",
   "status": "partial",
   "theorems": [
    "C142_stale_label_refuted"
   ],
   "note": "Refuted with a witness. The flux loop compares the left-over variable `label` instead of `neigh_label`."
  },
  {
   "property": "C143",
   "status": "partial",
   "theorems": [
    "C143_zero_charge_refuted"
   ],
   "note": "Refuted with a witness. Tie break divides by the basin charge."
  },
  {
   "property": "C144",
   "status": "partial",
   "theorems": [
    "C144_high_vacuum_refuted"
   ],
   "note": "Refuted with a witness. The vacuum voxel is looked up among edge voxels it does not belong to."
  },
  {
   "property": "C145",
   "status": "partial",
   "theorems": [
    "C145_size_refuted"
   ],
   "note": "Refuted with a witness. Every s >= 2 gives a box of s+2 values per axis."
  },
  {
   "property": "C146",
   "status": "partial",
   "theorems": [
    "C146_root_refuted"
   ],
   "note": "Refuted with a witness. The value is never written."
  },
  {
   "property": "C147",
   "status": "proved",
   "theorems": [
    "C147_assigned",
    "C147_labels",
    "C147_atoms"
   ],
   "note": "Geometry and neighbours are given per node; every history of marking steps of the code."
  },
  {
   "property": "C148",
   "status": "proved",
   "theorems": [
    "C148_shells",
    "C148_total"
   ],
   "note": "Contained atoms of nodes are inputs; the atoms of a collapsed node are those of the domain."
  },
  {
   "property": "C149",
   "status": "proved",
   "theorems": [
    "C149_bonds",
    "C149_unique",
    "C149_total"
   ],
   "note": "The geometric test and CrystalNN are inputs (w_bond, w_cnn)."
  },
  {
   "property": "C150",
   "status": "proved",
   "theorems": [
    "C150_sound",
    "C150_complete",
    "C150_total"
   ],
   "note": "Converse for the innermost domain with atoms; strictly increasing minima along the tree."
  },
  {
   "property": "C151",
   "status": "proved",
   "theorems": [
    "C151_bare",
    "C151_depth_unique",
    "C151_total"
   ],
   "note": "Distances and radii are inputs."
  },
  {
   "property": "C152",
   "status": "partial",
   "theorems": [
    "C152_uncombined_refuted"
   ],
   "note": "Refuted with a witness. The attribute subtype is set, which nothing reads."
  },
  {
   "property": "C153",
   "status": "partial",
   "theorems": [
    "C153_separate_refuted"
   ],
   "note": "Refuted with a witness. No ancestor contains both atoms and None is divided."
  },
  {
   "property": "C154",
   "status": "partial",
   "theorems": [
    "C154_isolated_refuted"
   ],
   "note": "Refuted with a witness. The loop variable is unbound when there are no ancestors."
  },
  {
   "property": "C155",
   "status": "proved",
   "theorems": [
    "C155_vector"
   ],
   "note": ""
  },
  {
   "property": "C156",
   "status": "proved",
   "theorems": [
    "C156_offsets",
    "C156_connections",
    "C156_shift_index"
   ],
   "note": ""
  },
  {
   "property": "C157",
   "status": "proved",
   "theorems": [
    "C157_large",
    "C157_small",
    "C157_unique",
    "C157_marked"
   ],
   "note": ""
  },
  {
   "property": "C158",
   "status": "proved",
   "theorems": [
    "C158_found",
    "C158_alone"
   ],
   "note": ""
  },
  {
   "property": "C159",
   "status": "partial",
   "theorems": [
    "C159_ties_refuted"
   ],
   "note": "Refuted: two equal voxels in the box away from both groups form a group of their own, which makes up for the one lost by joining. C158 has the condition under which it holds."
  },
  {
   "property": "C160",
   "status": "partial",
   "theorems": [
    "C160_vacuum_refuted"
   ],
   "note": "Refuted: the loop over neighbours stops at the first one of equal value, before it has seen the vacuum neighbours after it."
  },
  {
   "property": "C161",
   "status": "proved",
   "theorems": [
    "C161_versions",
    "C161_disjoint",
    "C161_tree"
   ],
   "note": ""
  },
  {
   "property": "C162",
   "status": "proved",
   "theorems": [
    "C162_atoms",
    "C162_listed"
   ],
   "note": ""
  },
  {
   "property": "C163",
   "status": "partial",
   "theorems": [
    "C163_atoms_refuted"
   ],
   "note": "False: only the numbers of atoms are compared. A domain that surrounds atom 0 at one value and atom 1 at the next keeps atom 0."
  },
  {
   "property": "C164",
   "status": "partial",
   "theorems": [
    "C164_empty_refuted"
   ],
   "note": "False: children of a domain that begins and ends at the same value become roots, because the parent is never in the list of current domains."
  },
  {
   "property": "C165",
   "status": "proved",
   "theorems": [
    "C165_counts"
   ],
   "note": ""
  },
  {
   "property": "C166",
   "status": "proved",
   "theorems": [
    "C166_found",
    "C166_finite",
    "C166_all"
   ],
   "note": ""
  },
  {
   "property": "C167",
   "status": "proved",
   "theorems": [
    "C167_bounce"
   ],
   "note": ""
  },
  {
   "property": "C168",
   "status": "proved",
   "theorems": [
    "C168_construct"
   ],
   "note": ""
  },
  {
   "property": "C169",
   "status": "proved",
   "theorems": [
    "C169_graph",
    "C169_leaves"
   ],
   "note": ""
  },
  {
   "property": "C170",
   "status": "proved",
   "theorems": [
    "C170_basins",
    "C170_joined"
   ],
   "note": ""
  },
  {
   "property": "C171",
   "status": "proved",
   "theorems": [
    "C171_sorted",
    "C171_considered",
    "C171_done"
   ],
   "note": ""
  },
  {
   "property": "C172",
   "status": "proved",
   "theorems": [
    "C172_types",
    "C172_result"
   ],
   "note": ""
  },
  {
   "property": "C173",
   "status": "proved",
   "theorems": [
    "C173_flags"
   ],
   "note": ""
  },
  {
   "property": "C174",
   "status": "proved",
   "theorems": [
    "C174_half",
    "C174_ends",
    "C174_plane"
   ],
   "note": "Agreement of the two ends needs the two bonds to have a common smallest image; see C50 and C176 for what happens otherwise."
  },
  {
   "property": "C175",
   "status": "proved",
   "theorems": [
    "C175_done"
   ],
   "note": "The routine that finds corners (scipy HalfspaceIntersection) is assumed to succeed when the atom is strictly inside all planes."
  },
  {
   "property": "C176",
   "status": "partial",
   "theorems": [
    "C176_along_refuted"
   ],
   "note": "Refuted: without any symmetry the bonds to a neighbour half a cell away on either side have one representative (the sign of the displacement is dropped), and the fraction found along one is used for both."
  },
  {
   "property": "C177",
   "status": "partial",
   "theorems": [
    "C177_bounding_refuted"
   ],
   "note": "Refuted: the planes are perpendicular to the bonds in fractional coordinates when it is decided which of them touch the region, so in a skew cell the planes towards the short diagonal are left out although they bound the region."
  },
  {
   "property": "C178",
   "status": "proved",
   "theorems": [
    "C178_smallest",
    "C178_absent",
    "C178_done"
   ],
   "note": "argsort is any sorting permutation."
  },
  {
   "property": "C179",
   "status": "proved",
   "theorems": [
    "C179_indices",
    "C179_once",
    "C179_defined",
    "C179_max"
   ],
   "note": ""
  },
  {
   "property": "C180",
   "status": "partial",
   "theorems": [
    "C180_electride_refuted",
    "C180_alone"
   ],
   "note": "Refuted by a three-feature graph (C180_electride_refuted); C180_alone gives the condition under which it holds."
  },
  {
   "property": "C181",
   "status": "partial",
   "theorems": [
    "C181_max_refuted"
   ],
   "note": "Refuted by two bonded hydrogen atoms (C181_max_refuted)."
  },
  {
   "property": "C182",
   "status": "proved",
   "theorems": [
    "C182_structure",
    "C182_prefix",
    "C182_labels"
   ],
   "note": ""
  },
  {
   "property": "C183",
   "status": "proved",
   "theorems": [
    "C183_covalent"
   ],
   "note": ""
  },
  {
   "property": "C184",
   "status": "proved",
   "theorems": [
    "C184_bader",
    "C184_badelf",
    "C184_labeler",
    "C184_total",
    "C184_agree"
   ],
   "note": ""
  },
  {
   "property": "C185",
   "status": "proved",
   "theorems": [
    "C185_sites"
   ],
   "note": ""
  },
  {
   "property": "C186",
   "status": "proved",
   "theorems": [
    "C186_surface"
   ],
   "note": ""
  },
  {
   "property": "C187",
   "status": "proved",
   "theorems": [
    "C187_sphere",
    "C187_breaks",
    "C187_examined",
    "C187_radii"
   ],
   "note": ""
  },
  {
   "property": "C188",
   "status": "proved",
   "theorems": [
    "C188_total"
   ],
   "note": ""
  },
  {
   "property": "C189",
   "status": "proved",
   "theorems": [
    "C189_electrides"
   ],
   "note": ""
  },
  {
   "property": "C190",
   "status": "partial",
   "theorems": [
    "C190_labels_refuted"
   ],
   "note": "Refuted: the labels count all valence features while charges exist only for atoms and electrides. A bond's voxels carry a label past the end of the charges in the zero-flux method, and voronelf writes past the end of its arrays."
  },
  {
   "property": "C191",
   "status": "proved",
   "theorems": [
    "C191_features",
    "C191_names",
    "C191_all"
   ],
   "note": "Files are names with the grid handed to Grid.write; the text of a file is C28-C30."
  },
  {
   "property": "C192",
   "status": "proved",
   "theorems": [
    "C192_union",
    "C192_types"
   ],
   "note": ""
  },
  {
   "property": "C193",
   "status": "proved",
   "theorems": [
    "C193_types",
    "C193_frame"
   ],
   "note": "The general rule; C194 and C195 state the two expectations it contradicts."
  },
  {
   "property": "C194",
   "status": "partial",
   "theorems": [
    "C194_shared_refuted"
   ],
   "note": "Refuted with a witness. Types that share a dummy symbol share a file name."
  },
  {
   "property": "C195",
   "status": "partial",
   "theorems": [
    "C195_charge_refuted"
   ],
   "note": "Refuted with a witness. write_reference is not passed on."
  },
  {
   "property": "C196",
   "status": "proved",
   "theorems": [
    "C196_features",
    "C196_types",
    "C196_union"
   ],
   "note": ""
  },
  {
   "property": "C197",
   "status": "partial",
   "theorems": [
    "C197_equal_refuted",
    "C197_first"
   ],
   "note": "Refuted with a witness. The loop returns after the first type."
  },
  {
   "property": "C198",
   "status": "proved",
   "theorems": [
    "C198_atoms",
    "C198_all"
   ],
   "note": ""
  },
  {
   "property": "C199",
   "status": "partial",
   "theorems": [
    "C199_named_refuted",
    "C199_temporary"
   ],
   "note": "Refuted with a witness. The temporary name is kept."
  },
  {
   "property": "C200",
   "status": "partial",
   "theorems": [
    "C200_removed_refuted"
   ],
   "note": "Refuted with a witness. The plain name is written and renamed."
  },
  {
   "property": "C201",
   "status": "partial",
   "theorems": [
    "C201_text_refuted"
   ],
   "note": "Refuted with a witness. The / operator raises for text."
  },
  {
   "property": "C202",
   "status": "proved",
   "theorems": [
    "C202_vasp",
    "C202_cube",
    "C202_hdf5",
    "C202_binary",
    "C202_read"
   ],
   "note": "File contents as text; hdf5 not modelled."
  },
  {
   "property": "C203",
   "status": "proved",
   "theorems": [
    "C203_total"
   ],
   "note": ""
  },
  {
   "property": "C204",
   "status": "partial",
   "theorems": [
    "C204_spin_refuted"
   ],
   "note": "Refuted with a witness. total_only=True is the default of the reader."
  },
  {
   "property": "C205",
   "status": "proved",
   "theorems": [
    "C205_sum",
    "C205_format"
   ],
   "note": ""
  },
  {
   "property": "C206",
   "status": "partial",
   "theorems": [
    "C206_vasp",
    "C206_format_refuted"
   ],
   "note": "Refuted with a witness. The source format is not passed on."
  },
  {
   "property": "C207",
   "status": "proved",
   "theorems": [
    "C207_names",
    "C207_plain",
    "C207_distinct"
   ],
   "note": ""
  },
  {
   "property": "C208",
   "status": "partial",
   "theorems": [
    "C208_stem_refuted",
    "C208_overwritten_refuted"
   ],
   "note": "Refuted with a witness. str.strip removes characters, not a suffix."
  },
  {
   "property": "C209",
   "status": "proved",
   "theorems": [
    "C209_name",
    "C209_plain",
    "C209_other"
   ],
   "note": ""
  },
  {
   "property": "C210",
   "status": "proved",
   "theorems": [
    "C210_items",
    "C210_integers",
    "C210_calls",
    "C210_species",
    "C210_literal"
   ],
   "note": ""
  },
  {
   "property": "C211",
   "status": "partial",
   "theorems": [
    "C211_none_refuted"
   ],
   "note": "Refuted with a witness. The empty text splits into one empty name."
  },
  {
   "property": "C212",
   "status": "proved",
   "theorems": [
    "C212_flag",
    "C212_case",
    "C212_number"
   ],
   "note": ""
  },
  {
   "property": "C213",
   "status": "proved",
   "theorems": [
    "C213_centred"
   ],
   "note": ""
  },
  {
   "property": "C214",
   "status": "proved",
   "theorems": [
    "C214_few",
    "C214_three",
    "C214_plane",
    "C214_near",
    "C214_cage"
   ],
   "note": ""
  },
  {
   "property": "C215",
   "status": "proved",
   "theorems": [
    "C215_atoms",
    "C215_totals",
    "C215_lengths"
   ],
   "note": ""
  },
  {
   "property": "C216",
   "status": "proved",
   "theorems": [
    "C216_basins",
    "C216_missing",
    "C216_negative"
   ],
   "note": ""
  },
  {
   "property": "C217",
   "status": "proved",
   "theorems": [
    "C217_table",
    "C217_spin"
   ],
   "note": ""
  },
  {
   "property": "C218",
   "status": "proved",
   "theorems": [
    "C218_paths"
   ],
   "note": ""
  },
  {
   "property": "C219",
   "status": "partial",
   "theorems": [
    "C219_text_refuted"
   ],
   "note": "C219_text_refuted: the attribute parent of the text default is read before it is made a path."
  },
  {
   "property": "C220",
   "status": "proved",
   "theorems": [
    "C220_listed",
    "C220_opposite"
   ],
   "note": ""
  },
  {
   "property": "C221",
   "status": "proved",
   "theorems": [
    "C221_reduced",
    "C221_orthogonal"
   ],
   "note": ""
  },
  {
   "property": "C222",
   "status": "partial",
   "theorems": [
    "C222_skew_refuted"
   ],
   "note": "Refuted: the 5x5x5 box of voxels is too small for strongly skewed cells."
  },
  {
   "property": "C223",
   "status": "proved",
   "theorems": [
    "C223_cross",
    "C223_area",
    "C223_start"
   ],
   "note": ""
  },
  {
   "property": "C224",
   "status": "proved",
   "theorems": [
    "C224_heights"
   ],
   "note": ""
  },
  {
   "property": "C225",
   "status": "proved",
   "theorems": [
    "C225_lines",
    "C225_apart",
    "C225_siblings"
   ],
   "note": ""
  },
  {
   "property": "C226",
   "status": "proved",
   "theorems": [
    "C226_boxes"
   ],
   "note": ""
  },
  {
   "property": "C227",
   "status": "proved",
   "theorems": [
    "C227_images",
    "C227_once"
   ],
   "note": ""
  },
  {
   "property": "C228",
   "status": "proved",
   "theorems": [
    "C228_camera"
   ],
   "note": ""
  },
  {
   "property": "C229",
   "status": "proved",
   "theorems": [
    "C229_lines"
   ],
   "note": ""
  },
  {
   "property": "C230",
   "status": "proved",
   "theorems": [
    "C230_aligned",
    "C230_length"
   ],
   "note": ""
  },
  {
   "property": "C231",
   "status": "proved",
   "theorems": [
    "C231_shown",
    "C231_initial",
    "C231_below"
   ],
   "note": ""
  },
  {
   "property": "C232",
   "status": "partial",
   "theorems": [
    "C232_hidden_refuted"
   ],
   "note": "Refuted as stated (values below -1); C231 holds for data that are not negative."
  },
  {
   "property": "C233",
   "status": "proved",
   "theorems": [
    "C233_ordered",
    "C233_iso",
    "C233_taken",
    "C233_start"
   ],
   "note": ""
  },
  {
   "property": "C234",
   "status": "partial",
   "theorems": [
    "C234_range_refuted"
   ],
   "note": "Refuted as stated."
  },
  {
   "property": "C235",
   "status": "proved",
   "theorems": [
    "C235_cut",
    "C235_near"
   ],
   "note": ""
  },
  {
   "property": "C236",
   "status": "partial",
   "theorems": [
    "C236_sliced_refuted"
   ],
   "note": "Refuted as stated; C235 is what holds."
  },
  {
   "property": "C237",
   "status": "partial",
   "theorems": [
    "C237_fits_refuted"
   ],
   "note": "Refuted as stated; C238 is what holds."
  },
  {
   "property": "C238",
   "status": "proved",
   "theorems": [
    "C238_fits"
   ],
   "note": ""
  },
  {
   "property": "C239",
   "status": "proved",
   "theorems": [
    "C239_visible",
    "C239_colors",
    "C239_radii",
    "C239_start",
    "C239_positive",
    "C239_table"
   ],
   "note": ""
  },
  {
   "property": "C240",
   "status": "partial",
   "theorems": [
    "C240_hidden_refuted"
   ],
   "note": "Refuted as stated; C239 is what holds."
  },
  {
   "property": "C241",
   "status": "proved",
   "theorems": [
    "C241_least",
    "C241_exact",
    "C241_linear"
   ],
   "note": "Exact rationals; the pseudo-inverse is given."
  },
  {
   "property": "C242",
   "status": "proved",
   "theorems": [
    "C242_pointers",
    "C242_climb"
   ],
   "note": "Exact rationals; float32 rounding not modelled."
  },
  {
   "property": "C243",
   "status": "partial",
   "theorems": [
    "C243_unpack_refuted"
   ],
   "note": "Refuted as stated, for all inputs; the neargrid-weight method takes two values and works (C242)."
  },
  {
   "property": "C244",
   "status": "proved",
   "theorems": [
    "C244_basins",
    "C244_start",
    "C244_atoms",
    "C244_parent",
    "C244_child"
   ],
   "note": "Qt by its signals."
  },
  {
   "property": "C245",
   "status": "proved",
   "theorems": [
    "C245_commit",
    "C245_species",
    "C245_colors",
    "C245_species_color"
   ],
   "note": "Qt by its signals."
  },
  {
   "property": "C246",
   "status": "partial",
   "theorems": [
    "C246_same_refuted"
   ],
   "note": "Refuted as stated; C245_species is what holds."
  },
  {
   "property": "C247",
   "status": "proved",
   "theorems": [
    "C247_edit",
    "C247_edit_reference",
    "C247_calm"
   ],
   "note": "Qt by its signals."
  },
  {
   "property": "C248",
   "status": "partial",
   "theorems": [
    "C248_blank_refuted"
   ],
   "note": "Refuted as stated; C247_edit says when the button is ready."
  },
  {
   "property": "C249",
   "status": "partial",
   "theorems": [
    "C249_error_refuted",
    "C249_edit_refuted"
   ],
   "note": "Refuted as stated; C247_calm is what holds."
  },
  {
   "property": "C250",
   "status": "proved",
   "theorems": [
    "C250_values",
    "C250_named",
    "C250_ending"
   ],
   "note": ""
  },
  {
   "property": "C251",
   "status": "partial",
   "theorems": [
    "C251_charge_refuted",
    "C251_witness_refuted"
   ],
   "note": "Refuted for all inputs."
  },
  {
   "property": "C252",
   "status": "partial",
   "theorems": [
    "C252_cancel_refuted",
    "C252_directory_refuted"
   ],
   "note": "Refuted as stated; C250 says which names work."
  },
  {
   "property": "C253",
   "status": "proved",
   "theorems": [
    "C253_answers",
    "C253_order"
   ],
   "note": "Results of the two searches are given; the marking of features reads the radii once (line 2464)."
  },
  {
   "property": "C254",
   "status": "partial",
   "theorems": [
    "C254_types_refuted"
   ],
   "note": "Refuted with a witness, for all histories. The attribute without electrides is returned."
  },
  {
   "property": "C255",
   "status": "partial",
   "theorems": [
    "C255_failed_refuted"
   ],
   "note": "Refuted with two witnesses. The graph is stored before the labelling is done."
  },
  {
   "property": "C256",
   "status": "partial",
   "theorems": [
    "C256_down_refuted"
   ],
   "note": "Refuted with a witness. The pairs of the up spin are stored in the down labeler."
  },
  {
   "property": "C257",
   "status": "partial",
   "theorems": [
    "C257_mean_refuted"
   ],
   "note": "Refuted with a witness. Entries are averaged by place. Where it holds: C259."
  },
  {
   "property": "C258",
   "status": "proved",
   "theorems": [
    "C258_spin"
   ],
   "note": "Pairs of the down spin are its own only if both spins found the same (otherwise C256, refuted)."
  },
  {
   "property": "C259",
   "status": "proved",
   "theorems": [
    "C259_mean"
   ],
   "note": ""
  },
  {
   "property": "C260",
   "status": "proved",
   "theorems": [
    "C260_before"
   ],
   "note": ""
  },
  {
   "property": "C261",
   "status": "proved",
   "theorems": [
    "C261_order",
    "C261_settings"
   ],
   "note": ""
  },
  {
   "property": "C262",
   "status": "proved",
   "theorems": [
    "C262_one"
   ],
   "note": ""
  },
  {
   "property": "C263",
   "status": "partial",
   "theorems": [
    "C263_method_refuted"
   ],
   "note": ""
  },
  {
   "property": "C264",
   "status": "partial",
   "theorems": [
    "C264_again_refuted"
   ],
   "note": ""
  },
  {
   "property": "C265",
   "status": "proved",
   "theorems": [
    "C265_failing"
   ],
   "note": ""
  },
  {
   "property": "C266",
   "status": "proved",
   "theorems": [
    "C266_pruned",
    "C266_runs"
   ],
   "note": "Depths are exact rationals. Hypotheses: no depth has been asked for yet (true right after construction) and parents of reducible nodes have a strictly lower minimum."
  },
  {
   "property": "C267",
   "status": "proved",
   "theorems": [
    "C267_combined",
    "C267_built"
   ],
   "note": "Stated for runs that finish. Depths are exact rationals. C267_combined assumes that the depths of parents of reducible nodes have been asked for before, which C267_built derives from the pruning pass."
  },
  {
   "property": "C268",
   "status": "proved",
   "theorems": [
    "C268_fresh",
    "C268_pair"
   ],
   "note": "Sites are a value compared by an arbitrary test; SpacegroupAnalyzer is a function that may fail. The three ways in which the claim fails without the conditions are C269, C270 and C271."
  },
  {
   "property": "C269",
   "status": "partial",
   "theorems": [
    "C269_ignored",
    "C269_settings_used_refuted"
   ],
   "note": "C269_ignored shows that after a read no assignment has any effect until the sites change."
  },
  {
   "property": "C270",
   "status": "partial",
   "theorems": [
    "C270_data_current_refuted"
   ],
   "note": "Witness: read data, change sites, read analyzer, read data."
  },
  {
   "property": "C271",
   "status": "partial",
   "theorems": [
    "C271_failure_repeats_refuted"
   ],
   "note": "Witness: read data, change to failing sites, read twice."
  },
  {
   "property": "C272",
   "status": "partial",
   "theorems": [
    "C272_nearest_refuted"
   ],
   "note": "Witness with two atoms: a lone pair nearest to atom 0 that keeps three neighbours."
  },
  {
   "property": "C273",
   "status": "proved",
   "theorems": [
    "C273_kinds"
   ],
   "note": ""
  },
  {
   "property": "C274",
   "status": "partial",
   "theorems": [
    "C274_unnoticed",
    "C274_edit_noticed_refuted"
   ],
   "note": ""
  },
  {
   "property": "C275",
   "status": "proved",
   "theorems": [
    "C275_labeler",
    "C275_accepts"
   ],
   "note": ""
  },
  {
   "property": "C276",
   "status": "proved",
   "theorems": [
    "C276_spin",
    "C276_badelf",
    "C276_spin_badelf"
   ],
   "note": ""
  },
  {
   "property": "C277",
   "status": "partial",
   "theorems": [
    "C277_ignored",
    "C277_reported_refuted"
   ],
   "note": ""
  },
  {
   "property": "C278",
   "status": "partial",
   "theorems": [
    "C278_no_effect",
    "C278_depth_used_refuted"
   ],
   "note": ""
  },
  {
   "property": "C279",
   "status": "proved",
   "theorems": [
    "C279_bader"
   ],
   "note": ""
  },
  {
   "property": "C280",
   "status": "partial",
   "theorems": [
    "C280_states",
    "C280_written_refuted"
   ],
   "note": ""
  },
  {
   "property": "C281",
   "status": "proved",
   "theorems": [
    "C281_badelf"
   ],
   "note": ""
  },
  {
   "property": "C282",
   "status": "proved",
   "theorems": [
    "C282_spin"
   ],
   "note": ""
  },
  {
   "property": "C283",
   "status": "partial",
   "theorems": [
    "C283_lost",
    "C283_reported_refuted"
   ],
   "note": ""
  },
  {
   "property": "C284",
   "status": "proved",
   "theorems": [
    "C284_labeler",
    "C284_spin"
   ],
   "note": ""
  },
  {
   "property": "C285",
   "status": "partial",
   "theorems": [
    "C285_used_refuted"
   ],
   "note": ""
  },
  {
   "property": "C286",
   "status": "partial",
   "theorems": [
    "C286_unreported",
    "C286_complete_refuted"
   ],
   "note": ""
  }
 ]
}