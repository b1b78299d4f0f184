{
 "C01": "Wrapping is a single if/elif: exact characterisation of the window on which it is correct.",
 "C02": "Exact rational slopes; neighbour list with unit offsets and positive distances.",
 "C03": "All schedules of the prange loop; maxima, minima and np.argwhere order.",
 "C04": "Proved for every acyclic table without pointers into the vacuum; the claim for tables with such pointers is C122 (refuted).",
 "C05": "On-grid method from given initial labels, and the whole run (maxima search, merging, ascent, compaction) for every prange schedule.",
 "C06": "np.unique(return_inverse) and the -1 shift.",
 "C07": "Exact rational arithmetic; labels below the number of basins (shown to hold for the whole on-grid run).",
 "C15": "get_edges and get_feature_edges, all prange schedules.",
 "C16": "Assignment and totals for all cells; the wrapped distance is the distance to the nearest periodic image for orthogonal cells. The claim for skewed cells is C128 (refuted).",
 "C09": "Plain parent array, root mask and UnionFind object; a find of an element never mentioned raises (finding).",
 "C10": "Unbounded integer offsets (the caller uses int8); the size array may hold anything.",
 "C53": "Single reads and writes are atomic; other iterations interleave arbitrarily.",
 "C20": "Every grid whose vacuum lies strictly below the rest, every tie order of argsort and every interpolation criterion that does not raise. Without these: C132, C133 (refuted).",
 "C08": "Exact condition for alignment, and alignment for the weight method. The claim that the on-grid and near-grid pipelines always satisfy the condition is C123 (refuted).",
 "C11": "Whole run from maxima search to totals; exact rational arithmetic; fewer than 10^6 maxima.",
 "C12": "Label within 3e-6 of the largest share when at most 26 basins share the voxel (the program keeps only the 26 largest).",
 "C54": "Proved when the stale `label` never coincides with a neighbour's label and nothing is truncated, with uniqueness. The claim without this condition is C142 (refuted).",
 "C55": "Proved for positive charges and low vacuum. Zero charges: C143; high vacuum voxels: C144 (both refuted).",
 "C13": "Whole near-grid run incl. concurrent refinement, every interleaving. dims >= 2, vacuum strictly below non-vacuum in the reference grid (the claim without it is C124, refuted), exact rational gradients.",
 "C14": "Whole run, charge and volume. Each of the three conditions is necessary: C125, C126, C127 (refuted).",
 "C17": "Getter/setter state machine of Bader with abstract numerics. Exceptions: C129 (whether atom_avg_surface_distances raises depends on the history) and C130 (vacuum_tol=True in the setter), both refuted.",
 "C18": "Mask, downward closure and count after any history. The meaning of True in the setter is C130 (refuted).",
 "C34": "Files of basins, atoms and species: disjoint, complete, summed variant, integral equals the reported charge. Badelf.write_atom_volumes is C138 (refuted).",
 "C19": "Exact minimum and mean over the basin's own surface voxels when every edge voxel belongs to a basin. With vacuum edge voxels the claim is C131 (refuted).",
 "C25": "Trilinear blend, grid-point exactness, bounds and periodicity for coordinates up to one cell outside the unit cell. Beyond: C134; nearest-point interpolation halfway between voxels on odd grids: C135 (both refuted).",
 "C26": "Spline weights (all moments), blend, bounds, constants and exact periodicity for all coordinates.",
 "C27": "Range, value and displacement bound for every exact linear solver; symmetric neighbourhoods leave a grid position unchanged. The claims about a voxel edge and about inputs off the grid are C136 and C137 (refuted).",
 "C21": "All six round trips, exact arithmetic; the inverse raises exactly for singular cells.",
 "C22": "Complete, duplicate-free, symmetric, true lengths; the 27 translations as an exact permutation with the documented order.",
 "C51": "Sound, duplicate-free and sorted for all cells; complete for orthogonal cells with positive row lengths. Completeness for skewed cells is C139 (refuted).",
 "C52": "Mean modulo the lattice, independence of translations and order, and weighted mean for clusters strictly within half a cell of each other. At exactly half a cell: C140; groups with a false flat maximum: C141 (both refuted).",
 "C56": "Entries for all sizes; centred box for size 1. Larger sizes: C145 (refuted).",
 "C57": "For every cell: attained at a corner and bounding the whole voxel; the code omits one corner, which is harmless by symmetry.",
 "C35": "Dimensionality is an arbitrary function of value and lowest basin (its computation from the grid is not part of this model). Connection values are below 1e12.",
 "C36": "Domains with equal basins and different dimensionality count as contained in each other.",
 "C58": "Proved for domains with children and for non-root single basins. Roots without children: C146 (refuted).",
 "C37": "find_domain_connections for all grids, labels, masks and data (up to 65536 basins, values above -1e300).",
 "C59": "Refuted for non-positive data (the second pass starts from 0 and drops zeros); for positive data it holds (C37_linked).",
 "C39": "Add, remove, collapse, pruning and combining passes and any history of them keep the graph well formed; no basin is lost unless an irreducible node is removed. The passes may raise (C60).",
 "C60": "Refuted: two reducible roots (second has no parent) and a root of depth zero (division by zero).",
 "C61": "Refuted: removing a node changes the parent's max_value but not its cached depth.",
 "C62": "Refuted for a node that is its parent's only child.",
 "C40": "For every well formed graph whose nodes are infinite exactly when their dimensionality is positive. The JSON text and the structure are handled by external libraries.",
 "C63": "Refuted: feature_type, nearest_atom_sphere and dist_beyond_atom are not written; from_dict removes the entry 'nodes' from its argument.",
 "C46": "Exact rationals; the final rounding to ten digits is omitted. Weights must not sum to zero and distances divided by must not be zero.",
 "C64": "Refuted: argmin over the coordinated distances is used as an atom index; for features without coordinated atoms argmin of an empty array raises.",
 "C65": "Refuted: weights are proportional to electronegativity (C65_proportional).",
 "C47": "Requires that every basin has an atom and that no basin belongs to two features (C36/C39).",
 "C66": "Refuted: with all three return flags off a bare array is returned.",
 "C41": "Interpolated value and nearest label are arbitrary functions of the position; np.unique is represented by its contract; fewer than 10^6 points. The symmetry canonicalisation of bonds is external to the theorem (any keys).",
 "C67": "Refuted: of two maxima equally far from the middle the first one met is taken.",
 "C68": "Refuted: a missing label at the atom's own position makes the atom's points foreign and the radius one half.",
 "C42": "Volume defined as the limit of Riemann sums over slices; numbers exact rationals, final rounding to 12 digits modelled.",
 "C69": "Refuted: for d < 0 the code answers 0.",
 "C70": "A site number not below the number of sites is an out-of-range write, excluded by hypothesis.",
 "C71": "Refuted: one atom in the middle of a simple cubic cell keeps no plane.",
 "C73": "Refuted: a voxel whose best shares are equal is given away with the shares of another voxel.",
 "C74": "Refuted: the label is the site that is furthest behind in charge, not the largest share.",
 "C75": "Refuted: with more than ten sites only the ten smallest shares are kept.",
 "C76": "Refuted: translations after the last shell boundary are never looked at, and the charge is lost.",
 "C77": "Refuted: voronelf does not clear the labels first.",
 "C79": "Refuted for an orthorhombic cell: volumes are measured in fractional coordinates with the direction of the bond as normal.",
 "C80": "Refuted: a count of five appends nothing and max of the empty list raises.",
 "C81": "Refuted: a staircase with period (2,1,0) has no connected pair in the supercell.",
 "C82": "Refuted: the highest dimensionality is listed with 0 although it exists at higher cutoffs.",
 "C83": "Refuted: [0] is returned.",
 "C84": "Refuted: rounding gives the index n and indexing raises.",
 "C23": "scipy.ndimage.label is a contract (C23_scipy gives a labelling satisfying it for both neighbourhoods); the while loop has fuel above the number of voxels",
 "C85": "Refuted for every grid shape",
 "C24": "Object state with caches as option fields, histories as lists of operations. Structure is the lattice matrix; spline and zoom are oracles; arrays added only when shapes agree.",
 "C49": "pymatgen's spin_data is modelled from its documentation: halves of sum and difference, stored at the first read.",
 "C86": "Refuted with witness history; general form C86_kept.",
 "C87": "Refuted with witness; exact factor in C87_volume.",
 "C88": "Refuted with witness; general form C88_spin.",
 "C89": "Refuted with witness; general form C89_split.",
 "C90": "Refuted with witness; general form C90_regrid.",
 "C91": "Refuted with a skewed 2D lattice.",
 "C92": "Refuted with witness.",
 "C28": "C28_roundtrip (all shapes, partial last lines, both arrays, augmentation lines), C28_total, C28_exact",
 "C29": "C29_field; the excluded values are C93 and C94",
 "C93": "false: 0.999999999999 is written as 0.100000000000E+00",
 "C94": "false: a grid of six values, one of them 1e-120, is written but reading it calls the debugger",
 "C95": "false: the text is written one character per line",
 "C96": "false: five arrays are written and only the total is read back",
 "C97": "false: without symbols every header line is taken for the one before",
 "C98": "false: the block is taken to end after the end of the file",
 "C99": "false: both files are read the same; the lattice is multiplied by the negative number",
 "C30": "C30_roundtrip, C30_origin (with an origin, atoms come back relative to it), C30_figures; exact rationals",
 "C100": "false: the origin is subtracted when reading but not added when writing",
 "C101": "false: a file of ones in a cell of 123.4 cubic Bohr is read as 100 everywhere",
 "C102": "false: a 2x1x2 file is read transposed",
 "C103": "false: it is multiplied by 1.88973",
 "C104": "false: an exception is raised",
 "C105": "exact rationals",
 "C31": "C31_unique, C31_keep, C31_ignore",
 "C33": "C33_perpendicular for any square root, C33_unit for one with a relative error, C33_zero: indices (0,0,0) fail",
 "C106": "false: labels X, X, X_1 become X_1, X_2, X_1",
 "C107": "false: (-1,1,1) in a cubic cell gives the opposite vector",
 "C108": "exact rationals",
 "C109": "false: the array is reduced in place",
 "C110": "false: the setter only checks the length",
 "C111": "false: the third axis of a two-dimensional array is looked at, an IndexError",
 "C32": "C32_dists, C32_right_angles, C32_nearest, C32_covalent, C32_covalent_fails, C32_all; exact rationals, square root and arc cosine abstract",
 "C112": "false for skew cells",
 "C113": "false: distances from 100 on are ignored and the entries stay uninitialised",
 "C114": "false: a point on an atom raises a ZeroDivisionError",
 "C50": "false: after a fourfold rotation about x the bonds (1,-2,0) and (1,0,-2) keep different forms, because the comparison is by components instead of lexicographic; see C115 for what holds",
 "C115": "exact rationals",
 "C116": "exact symmetry and rationals, results rounded to 12 digits as in the code",
 "C117": "false: (1/2,1/10,0) and (3/2,1/10,0)",
 "C118": "false: with a screw axis a bond and its reverse have the same form and flag 0, so both ends get the same fraction",
 "C119": "false: it is the distance of the dividing point, always equal to the radius",
 "C38": "exact arithmetic; accumulated offsets within 250000 cells; steps that join two winding parts are C120",
 "C120": "false: cycle lists of joined parts are concatenated, two lines and a bridge are reported as two-dimensional, two planes as four-dimensional",
 "C48": "exact rationals; comparison of coordinates arbitrary, reflexive where needed",
 "C121": "false: only the reference grids are compared; if they agree to 1e-4 the spin-up charge is counted twice. C48_total gives the cases where the claim holds",
 "C122": "Refuted with a witness. numpy index -1 reads the last voxel of the array.",
 "C123": "Refuted with a witness. Positions are listed in union-find root order.",
 "C124": "Refuted with a witness. The on-grid fallback steps into the vacuum and back for ever.",
 "C125": "Refuted with a witness. The vacuum totals are returned unscaled.",
 "C126": "Refuted with a witness. Shares are passed to voxels that were already processed.",
 "C127": "Refuted with a witness. The charge of such an edge voxel is handed to nobody.",
 "C128": "Refuted with a witness. Wrapped fractional differences are not nearest images in a skewed cell.",
 "C129": "Refuted with a witness. Raises on a new object, returns after atom_min_surface_distances has been read.",
 "C130": "Refuted with a witness. The setter stores True, that is 1.",
 "C131": "Refuted with a witness. Label -1 edge voxels are counted for the last basin.",
 "C132": "Refuted with a witness. The equally high neighbour is a vacuum voxel.",
 "C133": "Refuted with a witness. Reads past the end of its lists.",
 "C134": "Refuted with a witness. Wraps only once, so it reads outside the array two cells away.",
 "C135": "Refuted with a witness. Halves are rounded to even.",
 "C136": "Refuted with a witness. The clamp divides columns instead of rows of the lattice.",
 "C137": "Refuted with a witness. The offset of the input is kept.",
 "C138": "Refuted with a witness. The mask is inverted and the files accumulate.",
 "C139": "Refuted with a witness. The per-axis bound misses offsets in skewed cells.",
 "C140": "Refuted with a witness. Halves are rounded to even.",
 "C141": "Refuted with a witness. Weights and coordinates are misaligned.",
 "C142": "Refuted with a witness. The flux loop compares the left-over variable `label` instead of `neigh_label`.",
 "C143": "Refuted with a witness. Tie break divides by the basin charge.",
 "C144": "Refuted with a witness. The vacuum voxel is looked up among edge voxels it does not belong to.",
 "C145": "Refuted with a witness. Every s >= 2 gives a box of s+2 values per axis.",
 "C146": "Refuted with a witness. The value is never written.",
 "C148": "Contained atoms of nodes are inputs; the atoms of a collapsed node are those of the domain.",
 "C149": "The geometric test and CrystalNN are inputs (w_bond, w_cnn).",
 "C150": "Converse for the innermost domain with atoms; strictly increasing minima along the tree.",
 "C151": "Distances and radii are inputs.",
 "C159": "Refuted: two equal voxels in the box away from both groups form a group of their own, which makes up for the one lost by joining. C158 has the condition under which it holds.",
 "C160": "Refuted: the loop over neighbours stops at the first one of equal value, before it has seen the vacuum neighbours after it.",
 "C163": "False: only the numbers of atoms are compared. A domain that surrounds atom 0 at one value and atom 1 at the next keeps atom 0.",
 "C164": "False: children of a domain that begins and ends at the same value become roots, because the parent is never in the list of current domains.",
 "C176": "Refuted: without any symmetry the bonds to a neighbour half a cell away on either side have one representative (the sign of the displacement is dropped), and the fraction found along one is used for both.",
 "C177": "Refuted: the planes are perpendicular to the bonds in fractional coordinates when it is decided which of them touch the region, so in a skew cell the planes towards the short diagonal are left out although they bound the region.",
 "C174": "Agreement of the two ends needs the two bonds to have a common smallest image; see C50 and C176 for what happens otherwise.",
 "C175": "The routine that finds corners (scipy HalfspaceIntersection) is assumed to succeed when the atom is strictly inside all planes.",
 "C180": "Refuted by a three-feature graph (C180_electride_refuted); C180_alone gives the condition under which it holds.",
 "C181": "Refuted by two bonded hydrogen atoms (C181_max_refuted).",
 "C190": "Refuted: the labels count all valence features while charges exist only for atoms and electrides. A bond's voxels carry a label past the end of the charges in the zero-flux method, and voronelf writes past the end of its arrays.",
 "C191": "Files are names with the grid handed to Grid.write; the text of a file is C28-C30.",
 "C193": "The general rule; C194 and C195 state the two expectations it contradicts.",
 "C219": "C219_text_refuted: the attribute parent of the text default is read before it is made a path.",
 "C222": "Refuted: the 5x5x5 box of voxels is too small for strongly skewed cells.",
 "C232": "Refuted as stated (values below -1); C231 holds for data that are not negative.",
 "C234": "Refuted as stated.",
 "C236": "Refuted as stated; C235 is what holds.",
 "C237": "Refuted as stated; C238 is what holds.",
 "C240": "Refuted as stated; C239 is what holds.",
 "C243": "Refuted as stated, for all inputs; the neargrid-weight method takes two values and works (C242).",
 "C246": "Refuted as stated; C245_species is what holds.",
 "C248": "Refuted as stated; C247_edit says when the button is ready.",
 "C249": "Refuted as stated; C247_calm is what holds.",
 "C251": "Refuted for all inputs.",
 "C252": "Refuted as stated; C250 says which names work.",
 "C152": "Refuted with a witness. The attribute subtype is set, which nothing reads.",
 "C153": "Refuted with a witness. No ancestor contains both atoms and None is divided.",
 "C154": "Refuted with a witness. The loop variable is unbound when there are no ancestors.",
 "C194": "Refuted with a witness. Types that share a dummy symbol share a file name.",
 "C195": "Refuted with a witness. write_reference is not passed on.",
 "C197": "Refuted with a witness. The loop returns after the first type.",
 "C199": "Refuted with a witness. The temporary name is kept.",
 "C200": "Refuted with a witness. The plain name is written and renamed.",
 "C201": "Refuted with a witness. The / operator raises for text.",
 "C204": "Refuted with a witness. total_only=True is the default of the reader.",
 "C206": "Refuted with a witness. The source format is not passed on.",
 "C208": "Refuted with a witness. str.strip removes characters, not a suffix.",
 "C211": "Refuted with a witness. The empty text splits into one empty name.",
 "C254": "Refuted with a witness, for all histories. The attribute without electrides is returned.",
 "C255": "Refuted with two witnesses. The graph is stored before the labelling is done.",
 "C256": "Refuted with a witness. The pairs of the up spin are stored in the down labeler.",
 "C257": "Refuted with a witness. Entries are averaged by place. Where it holds: C259.",
 "C147": "Geometry and neighbours are given per node; every history of marking steps of the code.",
 "C253": "Results of the two searches are given; the marking of features reads the radii once (line 2464).",
 "C258": "Pairs of the down spin are its own only if both spins found the same (otherwise C256, refuted).",
 "C241": "Exact rationals; the pseudo-inverse is given.",
 "C242": "Exact rationals; float32 rounding not modelled.",
 "C247": "Qt by its signals.",
 "C244": "Qt by its signals.",
 "C245": "Qt by its signals.",
 "C202": "File contents as text; hdf5 not modelled.",
 "C178": "argsort is any sorting permutation.",
 "C266": "Depths are exact rationals. Hypotheses: no depth has been asked for yet (true right after construction) and parents of reducible nodes have a strictly lower minimum.",
 "C267": "Stated for runs that finish. Depths are exact rationals. C267_combined assumes that the depths of parents of reducible nodes have been asked for before, which C267_built derives from the pruning pass.",
 "C268": "Sites are a value compared by an arbitrary test; SpacegroupAnalyzer is a function that may fail. The three ways in which the claim fails without the conditions are C269, C270 and C271.",
 "C269": "C269_ignored shows that after a read no assignment has any effect until the sites change.",
 "C270": "Witness: read data, change sites, read analyzer, read data.",
 "C271": "Witness: read data, change to failing sites, read twice.",
 "C272": "Witness with two atoms: a lone pair nearest to atom 0 that keeps three neighbours."
}