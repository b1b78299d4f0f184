{"id": "C01", "title": "Periodic neighbour lookup lands on the right voxel", "statement": "For a grid of any shape, stepping from any voxel by an offset that leaves the cell by at most one period lands on the unique in-range voxel congruent to the target modulo the grid shape, and the reported image shift reconstructs the unwrapped position exactly; flat voxel numbers and (x,y,z) voxel coordinates are inverse bijections. Outside that range the lookup is wrong (out-of-range index).", "quantifier": "every grid shape with positive sides, every voxel, every offset", "why_tests_cant": "tests use a handful of shapes; the single if/elif wrap is only correct on a window of offsets which no finite set of tests delimits", "anchors": ["src/baderkit/core/utilities/basic.py: wrap_point, wrap_point_w_shift, flat_to_coords, coords_to_flat"]}
{"id": "C02", "title": "The uphill step is the steepest one", "statement": "From any voxel the step taken by the ascent methods goes to the neighbour with the largest (value difference)/(distance), the first such neighbour in the neighbour list on ties; the target is strictly higher than the start; the voxel stays where it is if and only if no neighbour is strictly higher.", "quantifier": "every grid of values, every voxel, every neighbour list with positive distances", "why_tests_cant": "depends on ties, on the order of the neighbour list and on all values", "anchors": ["src/baderkit/core/bader/methods/shared_numba.py: get_best_neighbor"]}
{"id": "C03", "title": "Local maxima are found exactly", "statement": "The maxima mask is True exactly at the non-vacuum voxels none of whose neighbours is strictly higher (strictly lower for minima). Consequently every grid with at least one non-vacuum voxel whose vacuum is a sub-level set has at least one maximum.", "quantifier": "every grid of values, every vacuum mask, every neighbour list", "why_tests_cant": "completeness ('no maximum missed') ranges over all grids", "anchors": ["src/baderkit/core/bader/methods/shared_numba.py: get_maxima"]}
{"id": "C04", "title": "Pointer resolution returns the end of every ascent chain", "statement": "Given any table of ascent pointers without cycles, the root-resolution loop terminates and returns for every voxel the last voxel of its chain, within log2 of the longest chain passes; with vacuum voxels marked -1 (and no pointer into the vacuum) vacuum voxels keep -1 and all other voxels still get the end of their chain.", "quantifier": "every acyclic pointer table of any length, with and without vacuum", "why_tests_cant": "termination and correctness of a fixpoint loop over arbitrary chains", "anchors": ["src/baderkit/core/bader/methods/base.py: MethodBase.get_roots"]}
{"id": "C05", "title": "On-grid method: every voxel goes to the maximum its steepest ascent reaches", "statement": "After the on-grid method every non-vacuum voxel carries the label of the basin whose maximum is reached by repeating the steepest-ascent step from that voxel; the ascent always terminates at a voxel flagged as maximum, and vacuum voxels carry -1.", "quantifier": "every grid of values, every vacuum mask closed downward in value, every neighbour list with positive distances", "why_tests_cant": "requires acyclicity of the ascent relation on all grids", "anchors": ["src/baderkit/core/bader/methods/ongrid/ongrid_numba.py: get_steepest_pointers", "src/baderkit/core/bader/methods/ongrid/ongrid_method.py: OngridMethod._run_bader", "src/baderkit/core/bader/methods/base.py: MethodBase.get_roots"]}
{"id": "C06", "title": "Basin labels are dense", "statement": "The basin labels in the returned label array are exactly 0..n-1 (each used at least once) where n is the number of basins reported, plus -1 for vacuum; two voxels share a label exactly when their roots coincide.", "quantifier": "every table of resolved roots, with and without vacuum", "why_tests_cant": "np.unique compaction must hold for all root tables, in particular the -1 offset", "anchors": ["src/baderkit/core/bader/methods/ongrid/ongrid_method.py: OngridMethod._run_bader", "src/baderkit/core/bader/methods/base.py: MethodBase.get_roots"]}
{"id": "C07", "title": "Charge and volume are conserved by voxel integration", "statement": "Basin charges plus vacuum charge equal the sum of the charge grid divided by the number of voxels, and basin volumes plus vacuum volume equal the cell volume; each basin gets exactly the charge of the voxels carrying its label.", "quantifier": "every charge grid, every labelling with labels in [-1,n), every cell volume", "why_tests_cant": "an identity over all labellings", "anchors": ["src/baderkit/core/bader/methods/shared_numba.py: get_basin_charges_and_volumes", "src/baderkit/core/bader/methods/base.py: MethodBase.get_basin_charges_and_volumes"]}
{"id": "C08", "title": "When reported basin coordinates belong to the basin with the same index", "statement": "The i-th reported position is the maximum whose voxels carry label i exactly when the representatives of the merged groups occur in increasing voxel order; the weight method always reports positions aligned with its labels.", "quantifier": "every grid of values and every method", "why_tests_cant": "the two orders are produced by different loops and agree on small symmetric tests", "anchors": ["src/baderkit/core/bader/methods/shared_numba.py: initialize_labels_from_maxima", "src/baderkit/core/bader/methods/ongrid/ongrid_method.py: OngridMethod._run_bader", "src/baderkit/core/bader/methods/neargrid/neargrid_method.py: NeargridMethod._run_bader"]}
{"id": "C09", "title": "Union-find maintains exactly the requested equivalence", "statement": "After any sequence of union and find calls two elements have the same root if and only if they are connected by the requested pairs; find returns a root and changes no root; path compression is unobservable; the root mask marks exactly the roots of the touched elements.", "quantifier": "every number of elements and every history of union/find calls", "why_tests_cant": "unbounded histories; path halving mutates the structure during queries", "anchors": ["src/baderkit/core/utilities/union_find.py: find_root, find_root_no_compression, union, union_w_roots", "src/baderkit/core/toolkit/union_finder.py: UnionFind"]}
{"id": "C10", "title": "Union-find with image shifts keeps consistent offsets", "statement": "After any sequence of shifted unions whose requests are consistent, the difference of the offsets reported for two elements of one class equals the sum of the requested shifts along any path joining them; a shifted union never changes the relative offset of elements already connected; find with compression returns the same root and offset as find without.", "quantifier": "every number of elements, every history of shifted union and find calls, every integer shift vector", "why_tests_cant": "unbounded histories over Z^3 offsets", "anchors": ["src/baderkit/core/utilities/union_find.py: find_root_with_shift, find_root_with_shift_no_compression, union_with_shift"]}
{"id": "C11", "title": "Weight method conserves charge and volume", "statement": "Whenever the weight method returns, its basin charges and volumes plus the vacuum share sum to the whole cell, because the fractions with which each voxel is shared out sum to one.", "quantifier": "every charge grid, every reference grid whose vacuum voxels lie strictly below the others, every set of positive facet weights whose offsets wrap once, every order of tied voxels", "why_tests_cant": "requires an induction over the whole sorted voxel sequence", "anchors": ["src/baderkit/core/bader/methods/weight/weight_numba.py: sort_maxima_frac, get_weight_assignments", "src/baderkit/core/bader/methods/weight/weight_method.py: WeightMethod._run_bader"]}
{"id": "C12", "title": "Weight method labels an edge voxel with the basin that receives most of it", "statement": "A voxel shared between several basins is labelled with a basin that holds a positive part of it, within the tie tolerance (3e-6) of the largest part; vacuum voxels keep -1 and maxima their own basin; a voxel all of whose uphill neighbours belong wholly to one basin does too.", "quantifier": "every grid whose vacuum lies strictly below the rest and every set of positive facet weights", "why_tests_cant": "needs all ties and all orders of neighbours", "anchors": ["src/baderkit/core/bader/methods/weight/weight_numba.py: get_weight_assignments"]}
{"id": "C13", "title": "Near-grid refinement terminates and is schedule independent", "statement": "Each near-grid climb terminates; each refinement pass gives every edge voxel the label of the voxel its own corrected climb ends at, independent of the order or interleaving in which voxels are processed; a voxel is refined at most once over all passes so the refinement loop terminates; labels stay within the existing basins.", "quantifier": "every grid whose vacuum lies strictly below the rest in the reference grid, every initial labelling, every order of the parallel loop", "why_tests_cant": "a parallel loop with shared label and flag arrays: all interleavings", "anchors": ["src/baderkit/core/bader/methods/neargrid/neargrid_numba.py: refine_fast_neargrid, get_neargrid_labels", "src/baderkit/core/bader/methods/neargrid/neargrid_method.py: NeargridMethod._run_bader"]}
{"id": "C14", "title": "Near-grid weight method conserves charge", "statement": "Basin charges plus the vacuum charge scaled like the basin charges equal the integral of the charge grid, and the same for volumes, whenever no edge voxel is a local maximum and ordering the edge voxels by charge orders them by reference value.", "quantifier": "every reference grid, charge grid, labelling, set of facet weights, order and interleaving satisfying the two conditions", "why_tests_cant": "holds only under conditions on the grids that no test corpus reveals", "anchors": ["src/baderkit/core/bader/methods/neargrid_weight/neargrid_weight_numba.py: get_edge_charges_volumes", "src/baderkit/core/bader/methods/neargrid_weight/neargrid_weight_method.py: NeargridWeightMethod"]}
{"id": "C15", "title": "Basin edges are found exactly", "statement": "A voxel is flagged as edge exactly when it is not vacuum and has a neighbour that is not vacuum and carries a different label.", "quantifier": "every labelling, every vacuum mask, every neighbour list", "why_tests_cant": "soundness and completeness over all labellings", "anchors": ["src/baderkit/core/bader/methods/shared_numba.py: get_edges", "src/baderkit/core/labelers/elf_labeler/elf_labeler_numba.py: get_feature_edges"]}
{"id": "C16", "title": "Atom totals equal basin totals", "statement": "Each basin is assigned to exactly one atom, an atom of minimal wrapped distance (first on ties); the atom charges (volumes) sum to the basin charges (volumes); atom labels are the basin's atom for labelled voxels and -1 for vacuum.", "quantifier": "every set of basins and atoms, every label array", "why_tests_cant": "identity over all assignments; argmin ties", "anchors": ["src/baderkit/core/bader/bader.py: Bader.assign_basins_to_structure"]}
{"id": "C17", "title": "Cached results never go stale", "statement": "After any sequence of setter and getter calls on a Bader object (vacuum_tol not set to True), every getter except atom_avg_surface_distances returns what a freshly constructed object with the current settings returns; whenever atom_avg_surface_distances returns, its value depends on the current settings only.", "quantifier": "every finite history of setter and getter calls", "why_tests_cant": "unbounded call histories", "anchors": ["src/baderkit/core/bader/bader.py: Bader._reset_properties, Bader property setters and getters"]}
{"id": "C18", "title": "Vacuum is a sub-level set", "statement": "A voxel is vacuum exactly when its value lies below the tolerance times the structure volume, nothing is vacuum when the tolerance is False, and all voxels with a lower value than some vacuum voxel are vacuum too; the number of vacuum voxels equals the count of the mask.", "quantifier": "every grid, every tolerance setting", "why_tests_cant": "the boolean/float overloading of the setting has corner cases", "anchors": ["src/baderkit/core/bader/bader.py: Bader.vacuum_mask, Bader.vacuum_tol, Bader.num_vacuum"]}
{"id": "C19", "title": "Surface distances", "statement": "For every basin the reported minimum surface distance is the smallest and the average the mean of the distances of exactly its own surface voxels to its maximum, and min <= average.", "quantifier": "every labelling, edge mask and set of distances in which each edge voxel belongs to a basin", "why_tests_cant": "depends on the labelling of every voxel including vacuum", "anchors": ["src/baderkit/core/bader/methods/shared_numba.py: get_min_avg_surface_dists"]}
{"id": "C20", "title": "False maxima are merged into equivalence classes of true maxima", "statement": "Neighbouring equal maxima (flat maxima) always receive one common basin; the merged sets are exactly the classes generated by the pairs the merge criterion accepts; every maximum voxel is labelled with the representative of its own class.", "quantifier": "every grid whose vacuum lies strictly below the rest, every set of maxima, every merge criterion that returns", "why_tests_cant": "unbounded plateau sizes and merge orders", "anchors": ["src/baderkit/core/bader/methods/shared_numba.py: initialize_labels_from_maxima"]}
{"id": "C21", "title": "Coordinate conversions are inverse to each other", "statement": "Converting between grid, fractional and Cartesian coordinates and back returns the input for every invertible cell.", "quantifier": "every invertible lattice, every grid shape, every point", "why_tests_cant": "all lattices including skewed ones", "anchors": ["src/baderkit/core/toolkit/grid.py: Grid.grid_to_frac, frac_to_grid, frac_to_cart, cart_to_frac, grid_to_cart, cart_to_grid"]}
{"id": "C22", "title": "Neighbour lists are complete and symmetric", "statement": "The 26-neighbour list contains every non-zero offset with components in {-1,0,1} exactly once together with its Cartesian length; the face-sharing list is the sub-list with one non-zero component; both are closed under negation with equal lengths. The 27 cell translations of the grid start with the zero translation, contain each translation exactly once, and put those without mixed signs first.", "quantifier": "every lattice and grid shape", "why_tests_cant": "for every lattice and every grid shape", "anchors": ["src/baderkit/core/toolkit/grid.py: Grid.point_neighbor_transforms, Grid.point_neighbor_face_tranforms, Grid.grid_neighbor_transforms"]}
{"id": "C23", "title": "Grid labelling gives periodic connected components", "statement": "With the default structure Grid.label always succeeds: unselected voxels get label 0, two selected voxels receive the same label if and only if they are joined by a chain of selected neighbouring voxels, where neighbours wrap through the cell boundary, and the labels of selected voxels are exactly 1..K. The same holds for any other structure (also None, faces only) when some voxel is not selected.", "quantifier": "every mask on every grid shape", "why_tests_cant": "component merging across three pairs of faces", "anchors": ["src/baderkit/core/toolkit/grid.py: Grid.label"]}
{"id": "C24", "title": "Derived quantities of a Grid follow its data", "statement": "After any history of assignments to total and diff, make_supercell, copy, regrid, linear_add, split_to_spin and reads, reading grid_indices, flat_grid_indices, point_dists, max_point_dist and the neighbour transforms gives the value computed from the current data and lattice; neighbour distances stay right as long as assignments keep the shape; make_supercell repeats the data periodically and scales the lattice; a copy has the same data and nothing cached. A new grid keeps the given data, is polarized when it has at least two arrays and non-collinear when it has at least four; a data type that is not given is ELF exactly when every value lies between 0 and 1.", "quantifier": "every history of Grid mutations and reads", "why_tests_cant": "unbounded histories", "anchors": ["src/baderkit/core/toolkit/grid.py: Grid.__init__, Grid._reset_cache, Grid.total, Grid.diff, Grid.grid_indices, Grid.point_dists, Grid.make_supercell, Grid.copy, Grid.regrid, Grid.linear_add"]}
{"id": "C25", "title": "Linear interpolation is exact, bounded and periodic", "statement": "Trilinear interpolation returns the stored value at grid points, always lies between the smallest and largest of the eight corner values, reproduces constants, and is periodic.", "quantifier": "every grid of values, every point at most one cell outside the unit cell", "why_tests_cant": "a continuum of points", "anchors": ["src/baderkit/core/utilities/interpolation.py: interp_linear, interp_nearest"]}
{"id": "C26", "title": "Cubic B-spline interpolation is a periodic partition of unity", "statement": "The four spline weights are non-negative and sum to one for every fractional offset; the interpolant of constant coefficients is that constant, is bounded by the coefficients and exactly periodic.", "quantifier": "every coefficient grid, every real point", "why_tests_cant": "a continuum of points", "anchors": ["src/baderkit/core/utilities/interpolation.py: interp_spline, cubic_bspline_weights"]}
{"id": "C27", "title": "Sub-voxel refinement does not worsen the maximum", "statement": "Parabolic refinement of a maximum fits the second-degree polynomial that minimises the squared misfit on the 27 voxels (plus 1e-10 times the squared coefficients), moves towards its stationary point by at most the step bound computed by the code, returns the value of the polynomial there unless one of the 27 voxels is higher, in which case that voxel's value is returned and the position kept. The value is never below the 27 voxels, a neighbourhood symmetric under inversion leaves the position unchanged, and the coordinates are in [0,1).", "quantifier": "every value neighbourhood", "why_tests_cant": "a continuum of neighbourhoods, including degenerate ones", "anchors": ["src/baderkit/core/utilities/interpolation.py: refine_frac_max_parabolic"]}
{"id": "C28", "title": "VASP volumetric data survive writing and reading", "statement": "Writing a grid with total, or total and difference, data in VASP format and reading it back yields the same lattice and sites to six decimals, the same symbols, the same grid shape, and at every voxel the same value to eleven digits (exactly, if it has at most eleven); no array is lost or added; with total_only exactly the total is read.", "quantifier": "every grid shape below 100000 per axis, every list of sites with columns wide enough, all values with a two-digit exponent whose mantissa does not round up to 10^11, any augmentation lines that are not a line of dimensions", "why_tests_cant": "Fortran ordering, partial last lines and byte-window arithmetic depend on size modulo 5", "anchors": ["src/baderkit/core/utilities/file_parsers.py: read_vasp, write_vasp"]}
{"id": "C29", "title": "Written numbers decode to the value written", "statement": "The number formatter produces a field of one blank and seventeen characters without white space which, followed by anything but a digit, is parsed to the value to half a unit of the eleventh digit.", "quantifier": "every value with a two-digit exponent whose mantissa does not round up to 10^11", "why_tests_cant": "rounding boundaries at powers of ten are measure-zero for random tests", "anchors": ["src/baderkit/core/utilities/file_parsers.py: write_vasp, format helpers"]}
{"id": "C30", "title": "Cube files survive writing and reading", "statement": "Writing a grid in Gaussian cube format without an origin and reading it back yields the same shape, the lattice, atoms and ion charges to the written decimals, and at every voxel the six-digit number written for it times the volume, rounded to the guessed number of significant figures; that number is at most six unless all values are zero.", "quantifier": "every grid shape, lattice, list of sites and charges with columns wide enough, and all double-range values", "why_tests_cant": "axis order and origin handling are invisible on symmetric examples", "anchors": ["src/baderkit/core/utilities/file_parsers.py: read_cube, write_cube"]}
{"id": "C31", "title": "Site labels are unique after relabelling", "statement": "relabel_sites gives every site a label different from all others, namely its old label and a number; with ignore_uniq, labels that occur once are kept, and the labels are all different if no label that occurs once is a numbered copy of one that occurs more often.", "quantifier": "every list of species labels", "why_tests_cant": "collisions between generated and pre-existing labels", "anchors": ["src/baderkit/core/toolkit/structure.py: Structure.relabel_sites"]}
{"id": "C32", "title": "Nearest atom and image searches return true minima", "statement": "Distances from a point to the atoms are the minimum over the 27 neighbouring images (and over all images in a cell with right angles); the nearest-neighbour search reports the atom, image and distance of a smallest one below 100; the covalent check looks at the three nearest images of all and names the two nearest atoms.", "quantifier": "every structure and point, every order of the parallel loops", "why_tests_cant": "argmin over images with sign conventions", "anchors": ["src/baderkit/core/utilities/coord_env.py: get_dists_to_atoms, get_atom_nearest_neighbors, check_covalent"]}
{"id": "C33", "title": "Miller vectors are perpendicular to their plane", "statement": "The vector returned for Miller indices (h,k,l) other than (0,0,0) is perpendicular to every direction in the plane with these indices and has length one.", "quantifier": "every (h,k,l) != 0 and every lattice", "why_tests_cant": "case split over zero indices times all lattices", "anchors": ["src/baderkit/core/toolkit/structure.py: Structure.get_cart_from_miller"]}
{"id": "C34", "title": "Written basin and atom volumes partition the charge", "statement": "The grids written for the individual basins (atoms) are pairwise disjoint and add up to the charge grid on the non-vacuum voxels; the summed variants equal the sum of the individual ones.", "quantifier": "every labelling and every selection of indices", "why_tests_cant": "identity over all selections", "anchors": ["src/baderkit/core/bader/bader.py: Bader.write_basin_volumes, write_atom_volumes, write_basin_volumes_sum, write_atom_volumes_sum, write_species_volume", "src/baderkit/core/badelf/badelf.py: Badelf.write_atom_volumes"]}
{"id": "C35", "title": "Bifurcation groups are the connected components at each value", "statement": "While the isovalue is lowered, the domains reported at value v are exactly the connected components of the graph of basins joined by saddles of value >= v, with the periodic dimensionality of the component; an unchanged component keeps its identity.", "quantifier": "every list of saddle connections and every value", "why_tests_cant": "all graphs and all ties between saddle values", "anchors": ["src/baderkit/core/labelers/bifurcation_graph/graph_numba/domain_bifurcations.py: find_domain_bifurcations"]}
{"id": "C36", "title": "Bifurcation domains form a tree", "statement": "Any two reported domains are nested or disjoint; every domain's parent is the smallest reported domain strictly containing it or an earlier one with the same basins; domains with the same parent share no basin; every domain with a parent begins at the value of a connection.", "quantifier": "every list of saddle connections", "why_tests_cant": "laminarity over all histories of merges", "anchors": ["src/baderkit/core/labelers/bifurcation_graph/graph_numba/domain_bifurcations.py: find_domain_bifurcations"]}
{"id": "C37", "title": "Basin connections carry the highest saddle", "statement": "Two basins joined at a saddle voxel are recorded with (at least) the largest value at which a saddle voxel joins them; a basin without any saddle voxel is recorded with the largest value at which one of its boundary voxels joins it to each neighbouring basin; no other connection is recorded.", "quantifier": "every labelling and grid", "why_tests_cant": "maximum over all boundary voxels, including zero or negative values", "anchors": ["src/baderkit/core/labelers/bifurcation_graph/graph_numba/domain_bifurcations.py: find_domain_connections"]}
{"id": "C38", "title": "Periodic dimensionality is the rank of the cycle lattice", "statement": "For a solid grown in any number of steps, the groups are the connected components of its voxels, a voxel outside gets dimension 0, and the dimensionality reported for a voxel is the rank of the lattice generated by the image shifts of the closed loops through it.", "quantifier": "every grid of at least two points per axis, every symmetric list of unit steps and every increasing sequence of solids without vacuum in which no step joins two parts that both wind through the cell", "why_tests_cant": "unbounded graphs and edge orders", "anchors": ["src/baderkit/core/labelers/bifurcation_graph/graph_numba/bifurcation_base.py: find_periodic_cycles, get_domain_dimensionality, get_connected_groups"]}
{"id": "C39", "title": "Graph editing keeps the bifurcation tree well formed", "statement": "Any sequence of node removals and conversions keeps keys unique, parents and children mutually consistent, parents listed before children, roots exactly the nodes without a parent, and loses no basin.", "quantifier": "every tree and every edit history", "why_tests_cant": "unbounded edit histories on a pointer structure", "anchors": ["src/baderkit/core/labelers/bifurcation_graph/nodes.py: NodeBase, ReducibleNode.remove, ReducibleNode.make_irreducible, IrreducibleNode.remove", "src/baderkit/core/labelers/bifurcation_graph/graph.py: BifurcationGraph"]}
{"id": "C40", "title": "Graphs survive conversion to and from dictionaries", "statement": "from_dict(to_dict(g)) succeeds and has the same nodes in the same order with the same keys, kinds, basins, values, dimensionalities, atoms, subtypes, surface distances, parents, children and roots as g, and to_dict of the result is the same dictionary.", "quantifier": "every graph", "why_tests_cant": "all tree shapes and all attribute combinations", "anchors": ["src/baderkit/core/labelers/bifurcation_graph/graph.py: BifurcationGraph.to_dict, from_dict", "src/baderkit/core/labelers/bifurcation_graph/nodes.py: NodeBase.to_dict, from_dict"]}
{"id": "C41", "title": "Bond radii lie strictly inside the bond", "statement": "The radius fraction found along a bond lies strictly between 0 and 1 (so the internal assertion never fires), it is the local maximum nearest to the middle (covalent) or the local minimum nearest to the first foreign point (ionic), refined to within 2^-k of a step when the profile has a single extremum there, or exactly one half in the documented fallback cases; radii are fractions of the bond length, and a bond listed in both directions gets fractions that add up to one.", "quantifier": "every interpolated profile and labelling along a bond with at least three points; every list of bonds", "why_tests_cant": "all profiles, plateaus and ties", "anchors": ["src/baderkit/core/labelers/elf_labeler/elf_radii_numba.py: get_elf_radius_frac, get_elf_radius", "src/baderkit/core/labelers/elf_labeler/elf_radii.py"]}
{"id": "C42", "title": "Fraction of a voxel below a plane", "statement": "For every plane with a nonzero normal, the computed fraction is the volume of the part of the unit cube below the plane (defined by integrating over slices), rounded to the nearest 1e-12; it lies in [0,1], is 0 or 1 when the cube is on one side, is monotone in the plane offset, and the fractions on both sides add to exactly one.", "quantifier": "every plane (normal and offset)", "why_tests_cant": "a four parameter continuum including degenerate normals", "anchors": ["src/baderkit/core/utilities/voronoi.py: cube_fraction_under_plane"]}
{"id": "C43", "title": "BadELF assigns a voxel to the site whose planes enclose it", "statement": "A voxel without a label and outside the vacuum gets the site of the first partition (site and translation) that encloses its Cartesian position with the given margin, and no label when no partition does; labelled and vacuum voxels are untouched; the charge and volume of a site are the sums over its voxels.", "quantifier": "every set of planes and every voxel", "why_tests_cant": "all plane sets and translations", "anchors": ["src/baderkit/core/badelf/badelf_numba.py: get_in_partition_assignments"]}
{"id": "C44", "title": "BadELF shares out boundary voxels completely", "statement": "A voxel outside every partition is shared between the sites of the nearest shell with labelled neighbours in fractions that sum to one, each proportional to the neighbours' weights; total charge and volume are conserved when every such voxel has a labelled neighbour within a shell boundary.", "quantifier": "every set of boundary voxels and planes", "why_tests_cant": "all shells of translations; last-shell behaviour", "anchors": ["src/baderkit/core/badelf/badelf_numba.py: get_outside_partition_assignments, get_badelf_assignments"]}
{"id": "C45", "title": "Electride dimensionality and its cutoffs", "statement": "The dimensionality of a mask is read off the largest number of connected pairs of copies of a feature in a 2x2x2 supercell; a reported dimensionality d means that a feature is connected to its own images in d independent directions; raising the cutoff never raises it (no feature having five pairs); the search lists decreasing dimensionalities, each with the threshold to within 2^-16 and the rounding to four digits, and misses none that lasts for 2^-15.", "quantifier": "every grid, density, mask, set of features and cutoff", "why_tests_cant": "all masks and all monotone functions", "anchors": ["src/baderkit/core/badelf/badelf.py: Badelf._get_ELF_dimensionality", "src/baderkit/core/badelf/badelf.py: Badelf._get_electride_dimensionality"]}
{"id": "C46", "title": "Feature charges are shared out completely", "statement": "For the splitting methods equal, pauling, dist and weighted_dist, get_charges_and_volumes gives every site the sum over features of charge (volume) times the site's normalised weight (counted once per coordinated image), bare electrons being their own sites when use_electrides is set; the site charges and volumes sum to the feature charges and volumes.", "quantifier": "every list of features, coordinations and charges", "why_tests_cant": "identity over all coordinations including empty and repeated ones", "anchors": ["src/baderkit/core/labelers/elf_labeler/elf_labeler.py: ElfLabeler.get_charges_and_volumes"]}
{"id": "C47", "title": "Feature labels partition the basins", "statement": "get_feature_labels selects the features of the requested types (bare electrons first when ordered by type), gives them the site numbers after the atoms in that order, labels every voxel by the site owning its basin (the selected feature containing it, otherwise its atom) and vacuum by -1; site charges and volumes are the sums over owned basins and add up to the basin totals; unrequested parts are left out without changing the rest.", "quantifier": "every labelling and basin/feature table", "why_tests_cant": "identity over all tables", "anchors": ["src/baderkit/core/labelers/elf_labeler/elf_labeler.py: ElfLabeler.get_feature_labels"]}
{"id": "C48", "title": "Spin-up and spin-down results merge without loss", "statement": "Merging the two spin systems succeeds; the charges add up to the sum and the volumes to the average of the systems, site by site (also for atoms and for all electrides together); every site of either system appears once in the merged electride structure, in the order of the merged charges, and carries its name, with xu or xd added when only one system has it; the BadELF and the labeler route give the same structure.", "quantifier": "every pair of site lists, every comparison of coordinates, every charges and volumes", "why_tests_cant": "all overlaps between the two lists", "anchors": ["src/baderkit/core/badelf/badelf_spin.py: SpinBadelf._get_charges_and_volumes", "src/baderkit/core/labelers/elf_labeler/elf_labeler_spin.py: SpinElfLabeler.get_charges_and_volumes, electride_structure"]}
{"id": "C49", "title": "Splitting a grid into spin channels and adding them back", "statement": "split_to_spin of a spin-polarised charge density yields two grids with up+down = total and up-down = diff, of an ELF the two stored arrays; linear_add is self + scale*other for every key and raises when the keys differ; adding (subtracting) the two parts restores the total (difference).", "quantifier": "every spin-polarised grid", "why_tests_cant": "identity over all grids", "anchors": ["src/baderkit/core/toolkit/grid.py: Grid.split_to_spin, Grid.linear_add"]}
{"id": "C50", "title": "Equivalent bonds get one canonical representative", "statement": "Symmetry-equivalent displacements are mapped to the same canonical bond irrespective of the order in which the symmetry operations are listed.", "quantifier": "every set of equivalent displacements and every order", "why_tests_cant": "all permutations of the operation list", "anchors": ["src/baderkit/core/utilities/voronoi.py: get_canonical_displacement, get_canonical_bond"]}
{"id": "C51", "title": "All offsets within a radius are found", "statement": "get_transforms_in_radius returns grid offsets within the radius, each once and in order of distance, for every cell; for orthogonal cells it returns all of them.", "quantifier": "every lattice, shape and radius", "why_tests_cant": "skewed lattices", "anchors": ["src/baderkit/core/utilities/basic.py: get_transforms_in_radius"]}
{"id": "C52", "title": "Fractional coordinates merge independently of cell wrapping", "statement": "Merging a cluster of fractional coordinates that lie within half a cell of each other gives their (weighted) mean position modulo the lattice, in [0,1), independent of lattice translations of the inputs.", "quantifier": "every cluster of points and every choice of images", "why_tests_cant": "all wrappings; weight alignment", "anchors": ["src/baderkit/core/utilities/basic.py: merge_frac_coords, merge_frac_coords_weighted"]}
{"id": "C53", "title": "Concurrent root compression is schedule independent", "statement": "When the parallel root compression runs its path-halving lookups on the shared parent array without locks, every interleaving of the individual reads and writes leaves every element's root unchanged, no thread reads out of range, every thread finishes after a bounded number of its own steps, and the compressed array is the same for every schedule.", "quantifier": "every forest of pointers (with or without vacuum entries) and every interleaving of single memory accesses", "why_tests_cant": "data races; infinitely many interleavings", "anchors": ["src/baderkit/core/utilities/union_find.py: compress_roots, find_root"]}
{"id": "C54", "title": "Weight shares follow the flux rule", "statement": "The fraction of a voxel given to a basin is the flux weighted mean of the fractions of its higher neighbours; this rule determines the fractions uniquely, so the charges do not depend on processing order.", "quantifier": "every grid and every set of facet weights for which the left-over variable `label` does not coincide with a neighbour's label", "why_tests_cant": "needs an independent definition of the shares on every grid; the stale variable only matters for some label numberings", "anchors": ["src/baderkit/core/bader/methods/weight/weight_numba.py: get_weight_assignments (flux loop, lines 177-275)"]}
{"id": "C55", "title": "Weight method completes", "statement": "The weight method returns for every grid with positive charges whose vacuum lies below everything else.", "quantifier": "every grid", "why_tests_cant": "division by zero and uninitialised reads happen on exceptional grids only", "anchors": ["src/baderkit/core/bader/methods/weight/weight_numba.py: get_weight_assignments (tie break, idx_to_edge)"]}
{"id": "C56", "title": "Boxes around a grid point wrap and are centred", "statement": "cubic_slice(point, s) returns the values at the 2+s offsets -s..1 per axis around the point, wrapping at the cell boundary; with the default s = 1 this is the 3x3x3 box with the point in the middle.", "quantifier": "every grid, point and box size", "why_tests_cant": "all box sizes, all positions relative to the boundary", "anchors": ["src/baderkit/core/toolkit/grid.py: Grid.cubic_slice"]}
{"id": "C57", "title": "The voxel radius bounds every point of the voxel", "statement": "max_point_dist is the largest distance between the centre of a voxel and one of its eight corners, and no point of the voxel is further from the centre.", "quantifier": "every lattice (also skewed) and grid shape, every point of the voxel", "why_tests_cant": "continuum of points, all lattices", "anchors": ["src/baderkit/core/toolkit/grid.py: Grid.max_point_dist"]}
{"id": "C58", "title": "Every bifurcation domain has an upper value", "statement": "The upper value of a domain is the value at which its children appear, or the maximum of its basin when it is a single basin without children.", "quantifier": "every list of saddle connections, every domain that is not both a root and a leaf", "why_tests_cant": "uninitialised memory often holds plausible numbers; depends on which domains are roots", "anchors": ["src/baderkit/core/labelers/bifurcation_graph/graph_numba/domain_bifurcations.py: find_domain_bifurcations"]}
{"id": "C59", "title": "No touching basin stays unconnected", "statement": "Every basin that touches another basin at a boundary voxel outside the vacuum appears in at least one recorded connection, whatever the sign of the data.", "quantifier": "for all grids, labels, masks and data", "why_tests_cant": "Test data are charge densities or ELF with positive values; the defect needs a basin without saddle voxel whose boundary values are zero or negative.", "anchors": ["src/baderkit/core/labelers/bifurcation_graph/graph_numba/domain_bifurcations.py: find_domain_connections"]}
{"id": "C60", "title": "Pruning shallow reducible nodes never fails", "statement": "_remove_shallow_reducible_nodes completes on every well-formed bifurcation graph.", "quantifier": "every well-formed graph with any number of roots and any node depths", "why_tests_cant": "Test structures give one connected domain of non-zero depth; the failure needs two reducible roots or a root of depth zero.", "anchors": ["src/baderkit/core/labelers/bifurcation_graph/graph.py: BifurcationGraph._remove_shallow_reducible_nodes"]}
{"id": "C61", "title": "A node's depth agrees with its value range", "statement": "At any time node.depth equals node.max_value - node.min_value.", "quantifier": "every graph and every edit history", "why_tests_cant": "depth is cached on first access; the defect needs a particular order of reading and editing.", "anchors": ["src/baderkit/core/labelers/bifurcation_graph/nodes.py: NodeBase.depth, ReducibleNode.remove"]}
{"id": "C62", "title": "A parent's value range ends where its children begin after collapsing a subtree", "statement": "If every child starts at the value where its parent ends, the same holds after make_irreducible.", "quantifier": "every graph with this property and every reducible node", "why_tests_cant": "needs a node that is the only child of its parent, which arises only from dimensionality or atom changes.", "anchors": ["src/baderkit/core/labelers/bifurcation_graph/nodes.py: ReducibleNode.make_irreducible, ReducibleNode.remove"]}
{"id": "C63", "title": "Dictionaries keep every stored attribute and can be reused", "statement": "from_dict(to_dict(g)) also keeps feature types, nearest atomic spheres and distances beyond the atom, and from_dict can be called again with the same dictionary.", "quantifier": "every graph", "why_tests_cant": "tests compare node counts or basins only", "anchors": ["src/baderkit/core/labelers/bifurcation_graph/graph.py: BifurcationGraph.from_dict", "src/baderkit/core/labelers/bifurcation_graph/nodes.py: IrreducibleNode.to_dict"]}
{"id": "C64", "title": "'nearest' gives a feature to its nearest atom", "statement": "With splitting method 'nearest', and for features without coordinated atoms, the whole feature goes to the atom nearest to it.", "quantifier": "every list of features", "why_tests_cant": "in small cells the position in the coordination list and the atom index often agree", "anchors": ["src/baderkit/core/labelers/elf_labeler/elf_labeler.py: ElfLabeler.get_charges_and_volumes"]}
{"id": "C65", "title": "'pauling' gives more to the less electronegative atom", "statement": "As documented, the fraction an atom gets with splitting method 'pauling' increases with decreasing electronegativity.", "quantifier": "every pair of coordinated atoms", "why_tests_cant": "only runs of the method are tested", "anchors": ["src/baderkit/core/labelers/elf_labeler/elf_labeler.py: ElfLabeler.get_charges_and_volumes"]}
{"id": "C66", "title": "get_feature_labels always returns a tuple", "statement": "As documented, the returned result is always a tuple, even if only the feature assignments are requested.", "quantifier": "every combination of flags", "why_tests_cant": "flag combination not used in tests", "anchors": ["src/baderkit/core/labelers/elf_labeler/elf_labeler.py: ElfLabeler.get_feature_labels"]}
{"id": "C67", "title": "A bond's radius does not depend on the end it is computed from", "statement": "Computing the radius fraction from the neighbour's end gives one minus the fraction computed from the atom's end.", "quantifier": "every profile", "why_tests_cant": "needs two extrema equally far from the middle", "anchors": ["src/baderkit/core/labelers/elf_labeler/elf_radii_numba.py: get_elf_radius_frac"]}
{"id": "C68", "title": "Unlabelled points are skipped", "statement": "Points without a label (-1) along the bond do not influence the radius.", "quantifier": "every profile", "why_tests_cant": "needs very low values at an atom centre", "anchors": ["src/baderkit/core/labelers/elf_labeler/elf_radii_numba.py: get_elf_radius_frac"]}
{"id": "C69", "title": "A zero normal follows the half-space definition", "statement": "With a zero normal and a negative offset the half-space is everything, so the fraction should be 1.", "quantifier": "all offsets", "why_tests_cant": "Degenerate input no test passes; the branch has the comparison reversed.", "anchors": ["src/baderkit/core/utilities/voronoi.py: cube_fraction_under_plane lines 139-140"]}
{"id": "C70", "title": "Planes kept for the unit cell", "statement": "Of the planes of every site moved by the 27 neighbouring translations, exactly those are kept that do not contain the whole cell below them and whose site and translation has no plane with nothing of the cell below it; the volumes measured are those of the cell below the moved plane up to half of 1e-12; the result does not depend on the order of the parallel loop.", "quantifier": "all lists of planes with consecutive site numbers, all processing orders", "why_tests_cant": "Depends on interleavings and on every arrangement of planes.", "anchors": ["src/baderkit/core/utilities/voronoi.py: get_cell_wrapped_voronoi"]}
{"id": "C71", "title": "A partition containing the whole cell keeps a plane", "statement": "A site whose partition contains the whole cell should keep at least one plane for the cell, since voxels are assigned through planes.", "quantifier": "all partitions", "why_tests_cant": "Needs the special arrangement in which a partition equals the cell.", "anchors": ["src/baderkit/core/utilities/voronoi.py: get_cell_wrapped_voronoi lines 216-226"]}
{"id": "C72", "title": "Planes on the surface of a Voronoi cell", "statement": "A plane is marked exactly when at least three of the vertices lie on it within the tolerance.", "quantifier": "all planes, vertex lists and tolerances", "why_tests_cant": "The early exit must be right for every order and number of vertices.", "anchors": ["src/baderkit/core/utilities/voronoi.py: get_planes_on_surface"]}
{"id": "C73", "title": "Voxels shared equally between sites", "statement": "The charge given to a site from boundary voxels should be the sum over voxels of charge times the fraction of the site.", "quantifier": "all labellings and shells", "why_tests_cant": "Needs an exact tie between fractions.", "anchors": ["src/baderkit/core/badelf/badelf_numba.py: get_outside_partition_assignments"]}
{"id": "C74", "title": "Boundary voxels are labelled with their largest share", "statement": "A boundary voxel's label should be a site with the largest (to within a tenth) fraction of it.", "quantifier": "all labellings and shells", "why_tests_cant": "Needs a particular arrangement of neighbours and large charges.", "anchors": ["src/baderkit/core/badelf/badelf_numba.py: get_outside_partition_assignments"]}
{"id": "C75", "title": "The largest share is never dropped", "statement": "The site with strictly the largest fraction of a boundary voxel should be among those the voxel is shared between.", "quantifier": "all labellings and shells", "why_tests_cant": "Needs more than ten neighbouring sites.", "anchors": ["src/baderkit/core/badelf/badelf_numba.py: get_outside_partition_assignments"]}
{"id": "C76", "title": "Voxels with a labelled neighbour in the last shell are shared", "statement": "A boundary voxel with a labelled neighbour anywhere in the list of translations should be shared, so that no charge is lost.", "quantifier": "all labellings and shells", "why_tests_cant": "Needs a voxel whose only labelled neighbours are beyond the last shell boundary.", "anchors": ["src/baderkit/core/badelf/badelf_numba.py: get_outside_partition_assignments"]}
{"id": "C77", "title": "The voronelf method assigns by planes alone", "statement": "With the voronelf method a voxel enclosed by the partition of exactly one site should be given to this site.", "quantifier": "all planes, labels and voxels", "why_tests_cant": "Needs planes and basins that disagree.", "anchors": ["src/baderkit/core/badelf/badelf.py: _run_badelf"]}
{"id": "C78", "title": "Fractional and real half-spaces agree in cubic cells", "statement": "When the lattice rows are orthogonal and of equal length, a point is under a plane's Cartesian equation exactly when it is under the plane in fractional coordinates.", "quantifier": "all cubic lattices, planes and points", "why_tests_cant": "All orientations and planes.", "anchors": ["src/baderkit/core/badelf/badelf.py: partitioning_planes", "src/baderkit/core/utilities/voronoi.py: get_cell_wrapped_voronoi"]}
{"id": "C79", "title": "Planes dropped for a cell never cut it", "statement": "A translated partition that contains a corner of the cell in real space should keep its planes, for every lattice.", "quantifier": "all lattices and planes", "why_tests_cant": "Tests use nearly cubic cells.", "anchors": ["src/baderkit/core/utilities/voronoi.py: get_cell_wrapped_voronoi", "src/baderkit/core/badelf/badelf.py: partitioning_planes"]}
{"id": "C80", "title": "Every mask has a dimensionality", "statement": "The dimensionality should be computed for every feature, in particular for one that extends in three directions.", "quantifier": "all masks", "why_tests_cant": "Needs exactly five connected pairs of copies.", "anchors": ["src/baderkit/core/badelf/badelf.py: Badelf._get_ELF_dimensionality lines 733-742"]}
{"id": "C81", "title": "Connected features are never reported as isolated", "statement": "A feature connected to one of its own images should have dimensionality at least one.", "quantifier": "all masks", "why_tests_cant": "Needs a chain whose period is not one of the thirteen directions tried.", "anchors": ["src/baderkit/core/badelf/badelf.py: Badelf._get_ELF_dimensionality"]}
{"id": "C82", "title": "Dimensionalities are listed with the highest cutoff", "statement": "As documented, each dimensionality should be listed with the highest value where it exists.", "quantifier": "all densities", "why_tests_cant": "The documentation and the code describe different quantities.", "anchors": ["src/baderkit/core/badelf/badelf.py: Badelf.all_electride_dim_cutoffs"]}
{"id": "C83", "title": "No electrides, no dimensionalities", "statement": "As documented, the list of dimensionalities should be None when there are no electrides.", "quantifier": "all densities without electrides", "why_tests_cant": "The mark is overwritten later in the same call.", "anchors": ["src/baderkit/core/badelf/badelf.py: Badelf._get_electride_dimensionality lines 754-756", "src/baderkit/core/badelf/badelf.py: Badelf.all_electride_dims"]}
{"id": "C84", "title": "Features may lie anywhere in the cell", "statement": "The dimensionality should be computed for features with any fractional coordinates in [0, 1).", "quantifier": "all coordinates", "why_tests_cant": "Needs a coordinate in the last half voxel.", "anchors": ["src/baderkit/core/badelf/badelf.py: Badelf._get_ELF_dimensionality lines 653-658"]}
{"id": "C85", "title": "Labelling a full mask without a structure", "statement": "Grid.label(structure=None) labels a mask that selects every voxel. (Refuted: the table of connections has one entry per distinct label, there is no label 0, and label 1 is used as index: IndexError.)", "quantifier": "every grid shape with the all-true mask", "why_tests_cant": "needs the argument None together with a full mask; tests use the default structure", "anchors": ["src/baderkit/core/toolkit/grid.py: Grid.label"]}
{"id": "C86", "title": "Interpolation follows assignments", "statement": "After assigning total, or after linear_add, cubic_spline_coeffs is the spline of the current data. (Refuted: the coefficients read before are kept, _reset_cache does not clear them and linear_add copies them.)", "quantifier": "every grid, every assigned array, every history", "why_tests_cant": "needs a read before the assignment; depends on history", "anchors": ["src/baderkit/core/toolkit/grid.py: Grid.cubic_spline_coeffs, Grid._reset_cache, Grid.linear_add"]}
{"id": "C87", "title": "Point volume after make_supercell", "statement": "After make_supercell the volume of a point is the cell volume divided by the number of points. (Refuted: ngridpts is not updated, the volume is too large by the scaling factor.)", "quantifier": "every grid and scaling", "why_tests_cant": "all scalings", "anchors": ["src/baderkit/core/toolkit/grid.py: Grid.make_supercell, Grid.point_volume"]}
{"id": "C88", "title": "Supercell of a spin-polarised grid", "statement": "make_supercell of a spin-polarised grid scales both arrays and the lattice. (Refuted: it raises ValueError on the truth value of the difference array and leaves the total repeated, the difference and the lattice not.)", "quantifier": "every spin-polarised grid and scaling", "why_tests_cant": "state after an exception", "anchors": ["src/baderkit/core/toolkit/grid.py: Grid.make_supercell"]}
{"id": "C89", "title": "Spin parts follow assignments", "statement": "After assigning total, split_to_spin gives parts of the current data, and a grid that gets its difference by assignment can be split. (Refuted: spin data are stored at the first split; is_spin_polarized is fixed at construction.)", "quantifier": "every grid and history", "why_tests_cant": "depends on history", "anchors": ["src/baderkit/core/toolkit/grid.py: Grid.split_to_spin, Grid.total, Grid.diff"]}
{"id": "C90", "title": "regrid keeps the kind of data", "statement": "regrid of an ELF grid is an ELF grid. (Refuted: the result is a charge density; a later split mixes the two channels.)", "quantifier": "every spin-polarised ELF grid", "why_tests_cant": "needs a split after a regrid", "anchors": ["src/baderkit/core/toolkit/grid.py: Grid.regrid, Grid.split_to_spin"]}
{"id": "C91", "title": "point_dists is the distance to the origin's lattice", "statement": "point_dists is the distance of each point to the nearest lattice point. (Refuted: only the eight corners of the cell are tried; in a skewed cell another lattice point is nearer.)", "quantifier": "every cell", "why_tests_cant": "skewed cells", "anchors": ["src/baderkit/core/toolkit/grid.py: Grid.point_dists"]}
{"id": "C92", "title": "Augmentation data of the spin parts", "statement": "The augmentation occupancies of the parts returned by split_to_spin add up to those of the whole. (Refuted: the parts get those of the total and of the difference.)", "quantifier": "every spin-polarised charge density with augmentation data", "why_tests_cant": "arithmetic identity over all data", "anchors": ["src/baderkit/core/toolkit/grid.py: Grid.split_to_spin"]}
{"id": "C93", "title": "Values just below a power of ten are written correctly", "statement": "The field written for a value denotes that value also when its mantissa rounds up to the next power of ten.", "quantifier": "every value", "why_tests_cant": "the boundary has measure zero", "anchors": ["src/baderkit/core/utilities/file_parsers.py: write_vasp_data, format_fortran"]}
{"id": "C94", "title": "Files with very small values can be read back", "statement": "A written file can be read when a value needs a three-digit exponent.", "quantifier": "every value", "why_tests_cant": "such values are rare in test data", "anchors": ["src/baderkit/core/utilities/file_parsers.py: format_fortran, read_vasp"]}
{"id": "C95", "title": "Augmentation text survives writing and reading", "statement": "The augmentation text read from a file is the same after writing and reading the grid.", "quantifier": "every augmentation text", "why_tests_cant": "tests compare the grids only", "anchors": ["src/baderkit/core/utilities/file_parsers.py: read_vasp, write_vasp"]}
{"id": "C96", "title": "Non-collinear data survive writing and reading", "statement": "The magnetisation arrays of a non-collinear calculation are all read back from a written file.", "quantifier": "every grid with five arrays", "why_tests_cant": "needs non-collinear data and a second read", "anchors": ["src/baderkit/core/utilities/file_parsers.py: read_vasp, write_vasp"]}
{"id": "C97", "title": "Files written with vasp4_compatible can be read", "statement": "read_vasp reads what write_vasp writes with vasp4_compatible.", "quantifier": "every grid", "why_tests_cant": "nobody reads what the option writes", "anchors": ["src/baderkit/core/utilities/file_parsers.py: write_vasp"]}
{"id": "C98", "title": "A missing last newline does no harm", "statement": "A file is read the same with and without its last newline.", "quantifier": "every file", "why_tests_cant": "test files end with a newline", "anchors": ["src/baderkit/core/utilities/file_parsers.py: read_vasp"]}
{"id": "C99", "title": "Coordinate kinds and volumes of the header are respected", "statement": "Cartesian coordinates are converted to fractional ones, and a negative scale is taken as the volume of the cell.", "quantifier": "every header", "why_tests_cant": "test files are Direct with scale one", "anchors": ["src/baderkit/core/utilities/file_parsers.py: read_vasp"]}
{"id": "C100", "title": "Atoms keep their places when an origin is written", "statement": "Atoms are read back where they were when a cube file is written with an origin.", "quantifier": "every origin", "why_tests_cant": "tests write without an origin", "anchors": ["src/baderkit/core/utilities/file_parsers.py: write_cube, read_cube"]}
{"id": "C101", "title": "Reading a cube file keeps the precision of its values", "statement": "The value of a voxel is the number in the file times the volume, to the precision of the file.", "quantifier": "every file", "why_tests_cant": "needs a file whose numbers have fewer digits than the volume", "anchors": ["src/baderkit/core/utilities/file_parsers.py: read_cube, infer_significant_figures, round_to_sig_figs"]}
{"id": "C102", "title": "Cube data are read in the order of the format", "statement": "The numbers of a cube file are assigned to the voxels with the last index running fastest.", "quantifier": "every file", "why_tests_cant": "the writer makes the same mistake, so round trips agree", "anchors": ["src/baderkit/core/utilities/file_parsers.py: read_cube, write_cube"]}
{"id": "C103", "title": "Writing a cube file leaves its arguments alone", "statement": "The origin passed to write_cube is unchanged afterwards.", "quantifier": "every origin", "why_tests_cant": "tests do not look at the argument", "anchors": ["src/baderkit/core/utilities/file_parsers.py: write_cube"]}
{"id": "C104", "title": "Cube files of orbitals can be read", "statement": "A cube file with a negative number of atoms and a line of orbital numbers is read like one without.", "quantifier": "every such file", "why_tests_cant": "no test file of this kind", "anchors": ["src/baderkit/core/utilities/file_parsers.py: read_cube"]}
{"id": "C105", "title": "Significant figures are rounded and guessed correctly", "statement": "Rounding to n significant figures gives a nearest number with n digits, is idempotent and leaves numbers with at most n digits alone; the guess is the smallest number of figures between 1 and 20 for which every sampled value is within 1e-15 of its rounding.", "quantifier": "every value, number of figures and list of values", "why_tests_cant": "all positions of the decimal point, carries into a further digit", "anchors": ["src/baderkit/core/utilities/file_parsers.py: round_to_sig_figs, infer_significant_figures"]}
{"id": "C106", "title": "Labels are unique when unique ones are kept", "statement": "relabel_sites(ignore_uniq=True) gives every site a label different from all others.", "quantifier": "every list of labels", "why_tests_cant": "needs a unique label that looks like a numbered one", "anchors": ["src/baderkit/core/toolkit/structure.py: Structure.relabel_sites"]}
{"id": "C107", "title": "Miller vectors point away from the origin", "statement": "The vector returned for Miller indices (h,k,l) points to the side of the plane that (h,k,l) points to.", "quantifier": "every (h,k,l) and lattice", "why_tests_cant": "tests use positive indices", "anchors": ["src/baderkit/core/toolkit/structure.py: Structure.get_cart_from_miller"]}
{"id": "C108", "title": "Coordinates are wrapped into the cell", "statement": "The fractional coordinates of a new Structure differ from the given ones by whole numbers, lie in [0,1), and are unchanged if they already did.", "quantifier": "all coordinates", "why_tests_cant": "all rationals", "anchors": ["src/baderkit/core/toolkit/structure.py: Structure.__init__"]}
{"id": "C109", "title": "A new Structure leaves its arguments alone", "statement": "The array of coordinates passed to Structure is unchanged afterwards.", "quantifier": "all coordinates", "why_tests_cant": "tests do not look at the argument", "anchors": ["src/baderkit/core/toolkit/structure.py: Structure.__init__"]}
{"id": "C110", "title": "Labels can be set", "statement": "After structure.labels = new the labels are new.", "quantifier": "every list of labels of the right length", "why_tests_cant": "no test sets labels", "anchors": ["src/baderkit/core/toolkit/structure.py: Structure.labels"]}
{"id": "C111", "title": "Coordinates of several points can be merged", "statement": "Structure.merge_frac_coords accepts an array of shape N x 3.", "quantifier": "every such array", "why_tests_cant": "no test calls it", "anchors": ["src/baderkit/core/toolkit/structure.py: Structure.merge_frac_coords"]}
{"id": "C112", "title": "Atom distances are those of the nearest image", "statement": "Distances from a point inside the cell to the atoms are the minimum over all periodic images.", "quantifier": "every lattice", "why_tests_cant": "needs a skew cell", "anchors": ["src/baderkit/core/utilities/coord_env.py: get_dists_to_atoms"]}
{"id": "C113", "title": "Every atom has a nearest neighbour", "statement": "The nearest-neighbour search finds a neighbour for every atom.", "quantifier": "every structure", "why_tests_cant": "needs a cell larger than 100", "anchors": ["src/baderkit/core/utilities/coord_env.py: get_atom_nearest_neighbors"]}
{"id": "C114", "title": "Any point can be checked for covalency", "statement": "check_covalent returns a verdict for every point.", "quantifier": "every point and structure", "why_tests_cant": "needs a point exactly on an atom", "anchors": ["src/baderkit/core/utilities/coord_env.py: check_covalent"]}
{"id": "C115", "title": "Canonical bonds are minimal images", "statement": "A displacement, its opposite and its translates (away from half lattice vectors) have the same canonical form, within half the tolerance of one of them; the canonical bond is an image of the bond under an operation that moves its site onto its representative, no such image is smaller in every component, and a componentwise smallest one is always chosen, whatever the order of operations.", "quantifier": "every bond, list of operations and order of the parallel loops", "why_tests_cant": "all positions and orders of operations", "anchors": ["src/baderkit/core/utilities/voronoi.py: find_site_in_tol, get_canonical_displacement, get_canonical_bond, get_canonical_bonds"]}
{"id": "C116", "title": "Operations carry bonds and their dividing points along", "statement": "An operation that maps the site and the neighbour of a bond to sites in some cells yields the bond between these, with the image of its dividing point, in the row of the pair and the operation. If the images miss the sites by less than the tolerance, the exact bond between the sites found is used, also when an image lies just below the cell of its site.", "quantifier": "every structure with distinguishable sites, every operation, bond and fraction", "why_tests_cant": "all operations and cells", "anchors": ["src/baderkit/core/utilities/voronoi.py: generate_symmetric_bonds"]}
{"id": "C117", "title": "Lattice translations do not change canonical displacements", "statement": "Displacements that differ by a lattice vector have the same canonical form.", "quantifier": "every displacement", "why_tests_cant": "needs a component of exactly one half", "anchors": ["src/baderkit/core/utilities/voronoi.py: get_canonical_displacement"]}
{"id": "C118", "title": "A bond and its reverse are told apart", "statement": "The canonical forms of a bond and its reverse differ in the inversion flag unless an operation reverses the bond.", "quantifier": "every bond", "why_tests_cant": "needs equivalent atoms whose bond has no inversion centre", "anchors": ["src/baderkit/core/utilities/voronoi.py: get_canonical_bond"]}
{"id": "C119", "title": "Generated bonds carry their length", "statement": "The distance stored with a generated bond is the distance of the two atoms.", "quantifier": "every bond", "why_tests_cant": "the value is not compared in any test", "anchors": ["src/baderkit/core/utilities/voronoi.py: generate_symmetric_bonds"]}
{"id": "C120", "title": "Joined parts keep their dimensionality", "statement": "When a growing solid joins two parts that already wind through the cell, the dimensionality of the joined domain is still the rank of its loops.", "quantifier": "every increasing sequence of solids", "why_tests_cant": "needs two periodic domains that meet at a lower isovalue", "anchors": ["src/baderkit/core/labelers/bifurcation_graph/graph_numba/bifurcation_base.py: find_periodic_cycles"]}
{"id": "C121", "title": "Equal ELF does not hide different charges", "statement": "The merged charges add up to the charge of both spin densities.", "quantifier": "every pair of reference and charge grids", "why_tests_cant": "needs spin densities that differ where the ELF does not", "anchors": ["src/baderkit/core/labelers/elf_labeler/elf_labeler_spin.py: SpinElfLabeler.__init__", "src/baderkit/core/badelf/badelf_spin.py: SpinBadelf.__init__"]}
{"id": "C122", "title": "Pointers into the vacuum end in the vacuum", "statement": "A voxel whose pointer leads into the vacuum does not receive the label of an unrelated voxel.", "quantifier": "every pointer table", "why_tests_cant": "needs a vacuum taken from another grid than the reference grid", "anchors": ["src/baderkit/core/bader/methods/base.py: MethodBase.get_roots"]}
{"id": "C123", "title": "On-grid positions are listed in label order", "statement": "The i-th position reported by the on-grid method is the maximum of the basin with label i.", "quantifier": "every grid", "why_tests_cant": "positions and labels agree on most small grids", "anchors": ["src/baderkit/core/bader/methods/shared_numba.py: initialize_labels_from_maxima", "src/baderkit/core/bader/methods/ongrid/ongrid_method.py: OngridMethod._run_bader", "src/baderkit/core/bader/methods/neargrid/neargrid_method.py: NeargridMethod._run_bader"]}
{"id": "C124", "title": "Near-grid climbs end for every vacuum", "statement": "A near-grid climb ends even when vacuum voxels lie above others in the reference grid.", "quantifier": "every grid and every vacuum mask", "why_tests_cant": "an endless loop on exceptional grids", "anchors": ["src/baderkit/core/bader/methods/neargrid/neargrid_numba.py: refine_fast_neargrid, get_neargrid_labels", "src/baderkit/core/bader/methods/neargrid/neargrid_method.py: NeargridMethod._run_bader"]}
{"id": "C125", "title": "Near-grid weight vacuum totals have the units of the others", "statement": "Basin charges plus vacuum charge as returned add up to the integral of the charge grid.", "quantifier": "every run with vacuum", "why_tests_cant": "tests without vacuum never notice", "anchors": ["src/baderkit/core/bader/methods/neargrid_weight/neargrid_weight_numba.py: get_edge_charges_volumes", "src/baderkit/core/bader/methods/neargrid_weight/neargrid_weight_method.py: NeargridWeightMethod"]}
{"id": "C126", "title": "Near-grid weight conserves charge for any pair of grids", "statement": "Charge is conserved when the charge order of edge voxels differs from the reference order.", "quantifier": "every pair of grids", "why_tests_cant": "tests use the same grid for both", "anchors": ["src/baderkit/core/bader/methods/neargrid_weight/neargrid_weight_numba.py: get_edge_charges_volumes", "src/baderkit/core/bader/methods/neargrid_weight/neargrid_weight_method.py: NeargridWeightMethod"]}
{"id": "C127", "title": "Near-grid weight conserves charge at touching maxima", "statement": "Charge is conserved when an edge voxel is itself a maximum.", "quantifier": "every reference grid", "why_tests_cant": "needs adjacent maxima", "anchors": ["src/baderkit/core/bader/methods/neargrid_weight/neargrid_weight_numba.py: get_edge_charges_volumes", "src/baderkit/core/bader/methods/neargrid_weight/neargrid_weight_method.py: NeargridWeightMethod"]}
{"id": "C128", "title": "Basins go to the nearest atom in any cell", "statement": "The atom of a basin is the atom with the nearest periodic image.", "quantifier": "every cell", "why_tests_cant": "tests use nearly orthogonal cells", "anchors": ["src/baderkit/core/bader/bader.py: Bader.assign_basins_to_structure"]}
{"id": "C129", "title": "Average atom surface distances can be read at any time", "statement": "atom_avg_surface_distances returns the same on a new object and after any history.", "quantifier": "every history", "why_tests_cant": "needs the getter to be called first", "anchors": ["src/baderkit/core/bader/bader.py: Bader._reset_properties, Bader property setters and getters"]}
{"id": "C130", "title": "Tolerance True means the default tolerance", "statement": "Setting vacuum_tol to True has the same effect in the setter as in the constructor.", "quantifier": "every object", "why_tests_cant": "needs the setter rather than the constructor", "anchors": ["src/baderkit/core/bader/bader.py: Bader._reset_properties, Bader property setters and getters"]}
{"id": "C131", "title": "Surface averages ignore the vacuum", "statement": "The average surface distance of a basin is the mean over its own surface voxels also next to vacuum.", "quantifier": "every labelling with vacuum", "why_tests_cant": "only the last basin is affected", "anchors": ["src/baderkit/core/bader/methods/shared_numba.py: get_min_avg_surface_dists"]}
{"id": "C132", "title": "Merging of false maxima ends for every vacuum", "statement": "The climb away from a false maximum ends for every vacuum mask.", "quantifier": "every grid and vacuum mask", "why_tests_cant": "an endless loop on exceptional grids", "anchors": ["src/baderkit/core/bader/methods/shared_numba.py: initialize_labels_from_maxima"]}
{"id": "C133", "title": "The profile test returns for every profile", "statement": "The valley test between two maxima returns for every list of interpolated values.", "quantifier": "every profile", "why_tests_cant": "needs flat profile ends or very close maxima", "anchors": ["src/baderkit/core/bader/methods/shared_numba.py: initialize_labels_from_maxima"]}
{"id": "C134", "title": "Linear interpolation wraps any number of cells", "statement": "Trilinear interpolation depends only on the values inside the grid for every point.", "quantifier": "every point", "why_tests_cant": "tests stay near the cell", "anchors": ["src/baderkit/core/utilities/interpolation.py: interp_linear, interp_nearest"]}
{"id": "C135", "title": "Nearest-point interpolation is periodic", "statement": "interp_nearest gives the same value at points one cell apart.", "quantifier": "every point, including midpoints", "why_tests_cant": "needs exact midpoints on odd grids", "anchors": ["src/baderkit/core/utilities/interpolation.py: interp_linear, interp_nearest"]}
{"id": "C136", "title": "Refinement stays within one voxel", "statement": "Parabolic refinement moves the maximum by at most one voxel edge.", "quantifier": "every lattice and shape", "why_tests_cant": "needs differing shape along the axes", "anchors": ["src/baderkit/core/utilities/interpolation.py: refine_frac_max_parabolic"]}
{"id": "C137", "title": "Refinement ends at the parabola maximum from any start", "statement": "For a symmetric neighbourhood refinement returns the grid point even when started off the grid.", "quantifier": "every starting point", "why_tests_cant": "tests start at grid points", "anchors": ["src/baderkit/core/utilities/interpolation.py: refine_frac_max_parabolic"]}
{"id": "C138", "title": "BadELF atom volumes contain the atom", "statement": "Badelf.write_atom_volumes writes for each atom the charge of its own voxels.", "quantifier": "every labelling", "why_tests_cant": "files look plausible", "anchors": ["src/baderkit/core/bader/bader.py: Bader.write_basin_volumes, write_atom_volumes, write_basin_volumes_sum, write_atom_volumes_sum, write_species_volume", "src/baderkit/core/badelf/badelf.py: Badelf.write_atom_volumes"]}
{"id": "C139", "title": "All offsets within a radius are found in any cell", "statement": "get_transforms_in_radius returns every offset within the radius.", "quantifier": "every cell", "why_tests_cant": "tests use nearly orthogonal cells", "anchors": ["src/baderkit/core/utilities/basic.py: get_transforms_in_radius"]}
{"id": "C140", "title": "Merging is translation invariant at half a cell", "statement": "Merging two points exactly half a cell apart does not depend on the choice of images.", "quantifier": "every pair of points", "why_tests_cant": "needs exact halves", "anchors": ["src/baderkit/core/utilities/basic.py: merge_frac_coords, merge_frac_coords_weighted"]}
{"id": "C141", "title": "Merged maxima are weighted by their own values", "statement": "A merged group consisting of false flat maxima and one remaining maximum is placed at the remaining maximum.", "quantifier": "every group", "why_tests_cant": "needs a false flat maximum in the group", "anchors": ["src/baderkit/core/utilities/basic.py: merge_frac_coords, merge_frac_coords_weighted"]}
{"id": "C142", "title": "Weight shares follow the flux rule on every grid", "statement": "Basin charges of the weight method follow from the flux rule for every label numbering.", "quantifier": "every grid", "why_tests_cant": "the stale variable only matters for some numberings", "anchors": ["src/baderkit/core/bader/methods/weight/weight_numba.py: get_weight_assignments (flux loop, lines 177-275)"]}
{"id": "C143", "title": "Weight method completes with zero charges", "statement": "The weight method returns when basin charges are zero.", "quantifier": "every non-negative charge grid", "why_tests_cant": "division by zero on exceptional grids only", "anchors": ["src/baderkit/core/bader/methods/weight/weight_numba.py: get_weight_assignments (tie break, idx_to_edge)"]}
{"id": "C144", "title": "Weight method completes for any vacuum", "statement": "The weight method returns when a vacuum voxel lies above a voxel outside the vacuum.", "quantifier": "every vacuum mask", "why_tests_cant": "uninitialised reads on exceptional grids only", "anchors": ["src/baderkit/core/bader/methods/weight/weight_numba.py: get_weight_assignments (tie break, idx_to_edge)"]}
{"id": "C145", "title": "Larger boxes are centred", "statement": "cubic_slice(point, s) returns (2s+1)^3 values for every s.", "quantifier": "every s", "why_tests_cant": "only the default size is used", "anchors": ["src/baderkit/core/toolkit/grid.py: Grid.cubic_slice"]}
{"id": "C146", "title": "Isolated basins have an upper value", "statement": "A domain that is both a root and a leaf gets the maximum of its basin as upper value.", "quantifier": "every list of connections", "why_tests_cant": "uninitialised memory often holds plausible numbers", "anchors": ["src/baderkit/core/labelers/bifurcation_graph/graph_numba/domain_bifurcations.py: find_domain_bifurcations"]}
{"id": "C147", "title": "Every ELF feature ends with a final label", "statement": "When the labelling of ELF features returns, the graph is well formed and every irreducible node is a shell, covalent bond, covalent metal bond, shallow covalent metal bond, lone pair, bare electron or multi-centered feature; none is left unknown, so the exception for unassigned features is unreachable. Unless low pseudopotentials are ignored, every atom is the nearest atom of at least one core, shell or lone pair.", "quantifier": "All well-formed graphs, settings, geometries and neighbour lists, any stable or unstable argsort that sorts.", "why_tests_cant": "The labels depend on four passes over a tree of arbitrary shape; tests label a few known compounds.", "anchors": ["src/baderkit/core/labelers/elf_labeler/elf_labeler.py:2036-2128"]}
{"id": "C148", "title": "Shells are exactly the features around one atom", "statement": "After marking cores and shells with combine_shells the graph is well formed and keeps all leaf basins. The domains replaced by one irreducible node are exactly the finite reducible domains around one atom, without a child around one atom, whose depth divided by the range from their minimum to the highest value of any descendant (at least 0) exceeds shared_shell_ratio; the new node has the key, basins, parent, minimum and atoms of the domain, and all other nodes stay. An irreducible node is a shell exactly if it contains exactly one atom, and unknown otherwise.", "quantifier": "All well-formed graphs in which a child never contains more atoms than its parent, all settings; termination and absence of a division by zero when some descendant of each candidate lies above its minimum.", "why_tests_cant": "Collapsing changes the tree while later domains are still to be collapsed; the interplay only shows for particular nestings.", "anchors": ["src/baderkit/core/labelers/elf_labeler/elf_labeler.py:2149-2223"]}
{"id": "C149", "title": "Covalent bonds need angle, joint domain, two neighbours and charge", "statement": "An unassigned feature becomes covalent exactly if it lies on a bond within the angle tolerance, the innermost domain with both atoms reaches at least covalent_molecule_ratio of the innermost domain with one of them, it has two neighbours, neither atom is a metal and its charge exceeds min_covalent_charge. With a metal it becomes covalent metallic above that charge and shallow covalent metallic otherwise. All others stay unknown, every other feature keeps its type, and a bond stores its two atoms as its neighbours.", "quantifier": "All well-formed graphs, settings, bond tests and neighbour lists; totality when a common domain exists and the values are nonzero.", "why_tests_cant": "Depends on the nesting of domains above the feature and on ties of the ratio.", "anchors": ["src/baderkit/core/labelers/elf_labeler/elf_labeler.py:2225-2321"]}
{"id": "C150", "title": "Lone pairs are found in the innermost domain with atoms", "statement": "Marking lone pairs changes only unknown and shallow covalent metallic features. A new shell lies in a finite domain around one atom none of whose leaves was labelled. A new lone pair has more than min_covalent_charge and lies either in a finite one-atom domain without covalent features but with another core, shell or lone pair, or in another domain with atoms and a covalent feature in which it has at most one neighbour. Conversely a feature whose innermost domain with atoms meets one of these conditions is labelled accordingly, and the features of an unlabelled group around several atoms keep their type.", "quantifier": "All well-formed graphs, settings and neighbour lists; the converse for graphs in which domains begin strictly above their ancestors.", "why_tests_cant": "The loop depends on the order in which domains are visited and on what inner domains have already assigned.", "anchors": ["src/baderkit/core/labelers/elf_labeler/elf_labeler.py:2323-2439", "src/baderkit/core/labelers/bifurcation_graph/graph.py:161-175"]}
{"id": "C151", "title": "Bare electrons pass all five thresholds", "statement": "The last step labels an unknown, metallic or bare feature as a bare electron exactly if its value, its depth below the innermost infinite ancestor (or the root), its charge, its volume and its distance beyond the nearest atomic sphere all exceed the thresholds strictly, and as multi-centered otherwise; other features keep their type. The distance stored is the minimum of distance minus radius over all atoms and the stored atom attains it.", "quantifier": "All well-formed graphs and thresholds, including ties.", "why_tests_cant": "Thresholds are strict and tests never sit on a tie.", "anchors": ["src/baderkit/core/labelers/elf_labeler/elf_labeler.py:2448-2510", "src/baderkit/core/labelers/bifurcation_graph/nodes.py:157-175"]}
{"id": "C152", "title": "combine_shells=False still labels shared shells (refuted)", "statement": "Claim: without combine_shells the features of a shared shell are labelled as shells. Refuted: the code sets the attribute subtype, which nothing reads, and a feature of such a shell can end as a covalent bond.", "quantifier": "One witness graph with two atoms.", "why_tests_cant": "No test uses combine_shells=False with a feature on a bond line.", "anchors": ["src/baderkit/core/labelers/elf_labeler/elf_labeler.py:2214-2223"]}
{"id": "C153", "title": "Covalent marking handles graphs with several roots (refuted)", "statement": "Claim: a feature on a bond between atoms of different trees is simply not covalent. Refuted: no ancestor contains both atoms, the stored values stay None and the division raises TypeError.", "quantifier": "One witness graph with two roots.", "why_tests_cant": "Needs two separate trees and a feature on the line between their atoms.", "anchors": ["src/baderkit/core/labelers/elf_labeler/elf_labeler.py:2268-2298"]}
{"id": "C154", "title": "The depth to infinite connection is defined for isolated features (refuted)", "statement": "Claim: the last step handles a finite irreducible root. Refuted: depth_to_infinite loops over no ancestors and then reads the unbound loop variable.", "quantifier": "One witness graph.", "why_tests_cant": "Needs an isolated finite feature without parent, which arises only for molecules in vacuum.", "anchors": ["src/baderkit/core/labelers/bifurcation_graph/nodes.py:165-174", "src/baderkit/core/labelers/elf_labeler/elf_labeler.py:2448-2500"]}
{"id": "C155", "title": "Non-collinear VASP data are read component by component", "statement": "Writing a grid with the total and the three components of the magnetisation and reading the file back yields the same structure, the four arrays each under its own key with every value at its place to eleven digits, their augmentation text, and as difference the length of the vector read, with the sign of its product with (1.01, 1.02, 1.03) (zero if the product is zero).", "quantifier": "every grid shape below 100000 per axis, every list of sites with columns wide enough, all values that fit the format, any square root function", "why_tests_cant": "no test file is non-collinear; a swap of two components keeps all lengths", "anchors": ["src/baderkit/core/utilities/file_parsers.py: read_vasp, write_vasp"]}
{"id": "C156", "title": "The box of offsets and its connections", "statement": "get_connections_in_box(size) lists each of the (2 size + 1)^3 offsets of the box exactly once, and its connections are exactly the pairs of positions a < b in that list whose offsets share a face, an edge or a corner, each once. shift_to_index and index_to_shift are inverse to each other between the offsets of at most two along each axis and 0..124.", "quantifier": "every box size; every offset and index", "why_tests_cant": "a missing or doubled connection only shows on the few shapes of neighbourhood that need it", "anchors": ["src/baderkit/core/labelers/bifurcation_graph/graph_numba/bifurcation_base.py: get_connections_in_box, trans_to_idx, shift_to_index, index_to_shift"]}
{"id": "C157", "title": "What marks a saddle point", "statement": "check_if_saddle returns whether the number of connected groups of non-vacuum voxels beyond the value in the 5x5x5 box differs from the number of groups of those beyond or at the value, single voxels at the value left out. check_if_possible_saddle returns true if some neighbour has the value of the voxel and none is in the vacuum, false if some neighbour is in the vacuum and none has the value, and otherwise whether the neighbours beyond it fall into at least two groups. find_potential_saddle_points gives every voxel an answer and marks only edge voxels outside the vacuum at which the two counts differ.", "quantifier": "every grid with at least two voxels per axis, every data and vacuum array, both directions of comparison, every voxel", "why_tests_cant": "the 2^26 neighbourhoods of a voxel cannot be enumerated; the counts come from an in-place union-find whose order matters", "anchors": ["src/baderkit/core/labelers/bifurcation_graph/graph_numba/bifurcation_base.py: check_if_possible_saddle, check_if_saddle, find_potential_saddle_points"]}
{"id": "C158", "title": "Points that join two regions are marked", "statement": "An edge voxel with two neighbours beyond its value that are not joined within the non-vacuum voxels beyond that value anywhere in the periodic grid is marked by find_potential_saddle_points, provided no neighbour is in the vacuum and every group of equal voxels in the 5x5x5 box touches a voxel beyond the value (in particular if no other voxel of the box has its value).", "quantifier": "every grid with at least two voxels per axis, every data and vacuum array, both directions of comparison, every voxel and pair of neighbours", "why_tests_cant": "it relates a local test to connectivity in the whole periodic grid", "anchors": ["src/baderkit/core/labelers/bifurcation_graph/graph_numba/bifurcation_base.py: find_potential_saddle_points"]}
{"id": "C159", "title": "Marking of joining points among equal values", "statement": "An edge voxel with no vacuum around it, two of whose neighbours beyond its value are joined only through it, is marked whatever the other values near it.", "quantifier": "every grid with at least two voxels per axis", "why_tests_cant": "needs an exact tie of two other voxels near the point", "anchors": ["src/baderkit/core/labelers/bifurcation_graph/graph_numba/bifurcation_base.py: check_if_saddle"]}
{"id": "C160", "title": "Points that border the vacuum are not marked", "statement": "No voxel with a vacuum voxel among its neighbours is marked as a saddle point.", "quantifier": "every grid with at least two voxels per axis", "why_tests_cant": "needs a neighbour of equal value listed before the vacuum neighbour", "anchors": ["src/baderkit/core/labelers/bifurcation_graph/graph_numba/bifurcation_base.py: check_if_possible_saddle"]}
{"id": "C161", "title": "Domains split by surrounded atoms stay a tree", "statement": "get_domains_surrounding_atoms returns every input domain cut into one or more consecutive versions: each version keeps the basins and dimensionality of its domain, begins where the previous one ends, and the last one ends where the domain ended. Versions of one domain do not overlap. The first version of a child hangs below the last version of its parent, later versions below the one before; parents always come before children and end at the value their children begin at.", "quantifier": "every list of domains whose parents come first and end where the children begin, with non-empty value ranges, and every sequence of values and surrounding lists that contains the lower value of each domain", "why_tests_cant": "the indices of new and old domains only differ after several splits in one tree", "anchors": ["src/baderkit/core/labelers/bifurcation_graph/graph_numba/surrounded_atoms.py: get_domains_surrounding_atoms"]}
{"id": "C162", "title": "Atoms recorded for a domain", "statement": "At every value looked at, the version of a domain covering the value has as many atoms as the domain surrounds at that value, and the atoms of a version are those surrounded at the value at which it begins, or none.", "quantifier": "every tree of domains and sequence of values as in C161", "why_tests_cant": "needs domains whose surrounded atoms change between two bifurcations", "anchors": ["src/baderkit/core/labelers/bifurcation_graph/graph_numba/surrounded_atoms.py: get_domains_surrounding_atoms"]}
{"id": "C163", "title": "A swap of surrounded atoms is seen", "statement": "At every value looked at, the version of a domain covering the value lists the atoms that the domain surrounds at that value.", "quantifier": "every tree of domains and sequence of values as in C161", "why_tests_cant": "needs one atom to leave and another to enter a domain between two consecutive values", "anchors": ["src/baderkit/core/labelers/bifurcation_graph/graph_numba/surrounded_atoms.py: get_domains_surrounding_atoms"]}
{"id": "C164", "title": "Parents survive an empty range of values", "statement": "Every input domain that has a parent gets a parent in the output of get_domains_surrounding_atoms.", "quantifier": "every tree of domains in which parents come first and end where their children begin", "why_tests_cant": "needs two bifurcations at exactly the same value", "anchors": ["src/baderkit/core/labelers/bifurcation_graph/graph_numba/surrounded_atoms.py: get_domains_surrounding_atoms"]}
{"id": "C165", "title": "Contacts between voids and domains", "statement": "The contact matrix of get_connected_groups_w_connections holds for each void and domain the number of pairs of a non-vacuum voxel of the void and a neighbour of it, wrapped around the cell, that is outside the solid and in the domain. The order in which the voxels are visited does not matter, as long as no increment is lost.", "quantifier": "every grid, solid, vacuum mask, labelling, neighbour list with steps of at most one voxel, and order of the voxels", "why_tests_cant": "a wrong count changes the result only where two domains touch a void almost equally", "anchors": ["src/baderkit/core/labelers/bifurcation_graph/graph_numba/surrounded_atoms.py: get_connected_groups_w_connections"]}
{"id": "C166", "title": "Domains around an atom", "statement": "find_all_atom_domains returns for each atom the domains on the way outwards from the void or domain it sits in: from a finite void to the domain with the most contacts (the first of equals), from a finite domain to the void with the most contacts, up to the first infinite one. All domains listed but the last are finite. It raises exactly if some atom has no way outwards of at most 101 steps.", "quantifier": "every contact matrix, list of domains, dimensionalities and atoms", "why_tests_cant": "nested cages of depth two or more are rare", "anchors": ["src/baderkit/core/labelers/bifurcation_graph/graph_numba/surrounded_atoms.py: find_atom_domains, find_all_atom_domains"]}
{"id": "C167", "title": "A void and a domain facing each other", "statement": "If a finite void and a finite domain each have most of their contacts with the other, the search from either of them never gets out and raises an exception.", "quantifier": "every contact matrix and dimensionalities", "why_tests_cant": "needs a cavity with more inner than outer surface", "anchors": ["src/baderkit/core/labelers/bifurcation_graph/graph_numba/surrounded_atoms.py: find_atom_domains"]}
{"id": "C168", "title": "The graph built from the domains", "statement": "For nested domains with parents first, from_labeler builds a well formed graph with one node per domain in the same order: its key is the position, it is reducible exactly if some domain names it as parent, and it has the basins, values, dimensionality, atoms and parent of the domain and the children naming it, in order. The subtype of a reducible node is root without parent, else domain if the number of basins differs from the parent's, else dimensionality if that differs, else contained atoms if their number differs, else plain reducible; other nodes are points.", "quantifier": "every list of nested domains with parents first whose siblings share no basin", "why_tests_cant": "keys, references and positions only differ when something is wrong deep in a tree", "anchors": ["src/baderkit/core/labelers/bifurcation_graph/graph.py: BifurcationGraph.from_labeler", "src/baderkit/core/labelers/bifurcation_graph/nodes.py: NodeBase.__init__"]}
{"id": "C169", "title": "From connections of basins to the bifurcation graph", "statement": "The domains found by find_domain_bifurcations, split by get_domains_surrounding_atoms, always give a well formed graph whose nodes are connected components of the basins at connection values, in which every component at any value is a node and every node ends where its children begin. A basin whose connections to others all lie below its own highest value ends up alone in an irreducible node, and after removing and combining shallow nodes it still belongs to an irreducible node of a well formed graph.", "quantifier": "every list of connections above the lowest value of the data, every set of values and surrounding lists that contains the lower values of the domains, whatever the uninitialised upper values are, every pair of cutoffs for which the simplification finishes", "why_tests_cant": "composition of three stages with their own numbering of domains", "anchors": ["src/baderkit/core/labelers/bifurcation_graph/graph.py: BifurcationGraph.from_labeler", "src/baderkit/core/labelers/bifurcation_graph/graph_numba/domain_bifurcations.py: find_domain_bifurcations", "src/baderkit/core/labelers/bifurcation_graph/graph_numba/surrounded_atoms.py: get_domains_surrounding_atoms"]}
{"id": "C170", "title": "Every basin becomes an irreducible node", "statement": "If every basin reaches its highest value only where its neighbours in other basins are lower, then in the graph built by from_labeler (connections, bifurcations, split by atoms, construction) every basin is alone in an irreducible node, and after shallow nodes have been removed and combined it still belongs to an irreducible node. This is the check that is commented out in from_labeler.", "quantifier": "every grid, labelling, saddle mask, vacuum and symmetric neighbour list with connection values above the lowest value of the data; every order of the connections; every list of values and surrounding atoms containing the lower values of the domains; all cutoffs for which the simplification finishes", "why_tests_cant": "the maintainers disabled the runtime check because it failed on inputs whose maxima are not merged properly; the theorem says which inputs cannot fail", "anchors": ["src/baderkit/core/labelers/bifurcation_graph/graph.py: BifurcationGraph.from_labeler"]}
{"id": "C171", "title": "Atoms considered for the dividing planes", "statement": "For every symmetry-distinct atom, the neighbours found are sorted by distance without the atom itself; the atoms then considered are exactly those of the list reaching three times the largest neighbour distance that are not the atom itself and lie below every plane drawn at one and a half times the way to a found neighbour. At least the fractionally nearest found neighbour is always considered, so no atom is left without planes, and collecting the atoms never raises.", "quantifier": "all structures, all neighbour lists, all square-root approximations that are positive", "why_tests_cant": "the sets depend on arbitrary neighbour geometries; a test sees a few structures", "anchors": ["src/baderkit/core/labelers/elf_labeler/elf_radii.py:73-138", "src/baderkit/core/labelers/elf_labeler/elf_radii.py:189-255"]}
{"id": "C172", "title": "Rows reported by get_voronoi_radii", "statement": "Whatever get_voronoi_radii returns is sorted (in particular by site), has no repeated rows and no unknown site; every row is the image, under a symmetry operation, of a considered bond that was kept, with a fraction strictly between 0 and 1, and every image of every kept bond is present.", "quantifier": "all structures, operations, data and orders of the parallel loops for which the function returns", "why_tests_cant": "completeness of the result cannot be seen from any single output", "anchors": ["src/baderkit/core/labelers/elf_labeler/elf_radii.py:139-416"]}
{"id": "C173", "title": "Bonds kept for the polyhedra", "statement": "A bond is kept if and only if at least three corners of the region of its own atom, cut out by the planes of all bonds of that atom with their fractions, lie on the plane of the first bond of that atom in the same class; the ranges of bonds per atom never mix atoms.", "quantifier": "all structures, fractions and classes of bonds; any routine that finds corners", "why_tests_cant": "an off-by-one in the ranges only shows for particular numbers of bonds per atom", "anchors": ["src/baderkit/core/labelers/elf_labeler/elf_radii.py:302-361"]}
{"id": "C174", "title": "The two ends of a bond agree", "statement": "A bond between equivalent atoms is divided in the middle. A bond and its reverse between inequivalent atoms get complementary fractions if the componentwise smallest image of their displacement is the same, and then the planes drawn from the two ends are one plane seen from both sides.", "quantifier": "all structures, data, class labellings and loop orders", "why_tests_cant": "depends on symmetry, data and numbering at once", "anchors": ["src/baderkit/core/labelers/elf_labeler/elf_radii.py:257-300", "src/baderkit/core/labelers/elf_labeler/elf_radii.py:115-138"]}
{"id": "C175", "title": "get_voronoi_radii returns", "statement": "If the symmetry operations map atoms to atoms, distinct atoms are further apart than the tolerance and the corners of a region are found whenever the atom lies strictly inside all its planes, then get_voronoi_radii returns a result: no assertion fails, no index is out of range and no site is unknown.", "quantifier": "all such structures, all data and loop orders", "why_tests_cant": "absence of exceptions on all inputs", "anchors": ["src/baderkit/core/labelers/elf_labeler/elf_radii.py:139-416"]}
{"id": "C176", "title": "The fraction of a bond is the one found along it", "statement": "In a structure without symmetry the fraction assigned to a bond is the one that get_elf_radius_frac finds along that bond (or its reverse).", "quantifier": "all structures and data", "why_tests_cant": "only fails for particular positions", "anchors": ["src/baderkit/core/labelers/elf_labeler/elf_radii.py:257-300", "src/baderkit/core/utilities/voronoi.py:273-306"]}
{"id": "C177", "title": "The planes reported bound the region of the atom", "statement": "If every bond is divided in the middle, a point on the atom's side of all planes reported for it is nearer to the atom than to any atom considered.", "quantifier": "all lattices", "why_tests_cant": "cubic cells and cells with high symmetry do not show it", "anchors": ["src/baderkit/core/labelers/elf_labeler/elf_radii.py:115-138", "src/baderkit/core/labelers/elf_labeler/elf_radii.py:308-361"]}
{"id": "C178", "title": "Smallest ELF radius of each atom", "statement": "For every atom that occurs in the neighbour rows, the radius reported is the smallest of the radii in its own rows and the type is that of a row with this radius. An atom occurring in no row is given the smallest radius of all rows. The computation never fails when there is at least one row.", "quantifier": "all rows, all sorting orders of equal radii, any number of atoms", "why_tests_cant": "ties and unusual row orders are not enumerable", "anchors": ["src/baderkit/core/labelers/elf_labeler/elf_labeler.py:1474-1514", "src/baderkit/core/labelers/elf_labeler/elf_labeler.py:446-529"]}
{"id": "C179", "title": "Features that belong to one site alone", "statement": "atom_feature_indices_e lists with each site, without repetition, exactly the features that are no electrides, have one neighbouring atom and have the site as first neighbour, and with the k-th electride site the k-th electride feature. No feature is listed with two sites. The lists exist exactly when every such feature has a first neighbour among the sites. atom_max_values_e is the highest value of the listed features and fails exactly when a list is empty.", "quantifier": "all graphs of labelled features", "why_tests_cant": "a test sees one graph", "anchors": ["src/baderkit/core/labelers/elf_labeler/elf_labeler.py:623-672"]}
{"id": "C180", "title": "An electride is listed with its own feature only", "statement": "The list of an electride site holds its own feature and nothing else. Refuted: a feature with one neighbouring atom whose nearest site is an electride is listed with the electride. It holds when the first neighbours of all features around one atom are atoms.", "quantifier": "all graphs of labelled features", "why_tests_cant": "needs a feature between an atom and an electride", "anchors": ["src/baderkit/core/labelers/elf_labeler/elf_labeler.py:636-650"]}
{"id": "C181", "title": "Every site has a highest ELF value", "statement": "atom_max_values_e (and Badelf.elf_maxima, which returns it) is defined for every labelled system. Refuted: an atom all of whose features are shared, such as hydrogen in a bond, has an empty list and np.max raises.", "quantifier": "all graphs of labelled features", "why_tests_cant": "tests use atoms with core basins", "anchors": ["src/baderkit/core/labelers/elf_labeler/elf_labeler.py:654-672"]}
{"id": "C182", "title": "Structures with feature sites", "statement": "get_feature_structure returns the atoms followed by one site per feature of the requested types, in feature order or with the electrides first, at the coordinates and with the symbol of the feature. Its sites are numbered as in get_feature_labels, and with all electrides included it begins with electride_structure.", "quantifier": "all graphs, all requested types, both orders", "why_tests_cant": "the agreement of three separate constructions is not visible in a single output", "anchors": ["src/baderkit/core/labelers/elf_labeler/elf_labeler.py:1334-1418", "src/baderkit/core/labelers/bifurcation_graph/graph.py:194-262"]}
{"id": "C183", "title": "Sites that make a bond covalent", "statement": "Among the sites of the structure used for the radii, those that make a bond covalent are exactly the feature sites of valence features, without the electrides when these are treated as atoms; atoms are never among them.", "quantifier": "all graphs and structures whose atoms do not carry dummy symbols", "why_tests_cant": "depends on the dummy symbols of all feature types", "anchors": ["src/baderkit/core/labelers/elf_labeler/elf_labeler.py:1420-1471", "src/baderkit/core/labelers/elf_labeler/elf_radii.py:41-58"]}
{"id": "C184", "title": "Oxidation states from a POTCAR", "statement": "The oxidation state of an atom is the electron count of the last POTCAR section of its element minus its charge; for electrides it is minus the charge. Bader and Badelf raise exactly when an element is missing, the labeler counts no electrons then. The Badelf states add up to the electrons of the neutral atoms minus the charges, and labeler and Badelf agree on equal charges.", "quantifier": "all POTCARs, structures and charges", "why_tests_cant": "repeated sections and missing elements in all combinations", "anchors": ["src/baderkit/core/bader/bader.py:808-846", "src/baderkit/core/badelf/badelf.py:811-849", "src/baderkit/core/labelers/elf_labeler/elf_labeler.py:1005-1054"]}
{"id": "C185", "title": "Electrides per formula", "statement": "The electrons of the electrides per formula, a sum over the electride features, equal the sum of the charges that get_charges_and_volumes gives to the electride sites, provided no shared feature neighbours an electride.", "quantifier": "all systems and all sharing methods with defined weights", "why_tests_cant": "two separately coded sums", "anchors": ["src/baderkit/core/labelers/elf_labeler/elf_labeler.py:364-379", "src/baderkit/core/labelers/elf_labeler/elf_labeler.py:1056-1217"]}
{"id": "C186", "title": "Surface distances of features", "statement": "For every feature with a surface, the minimum surface distance is the smallest distance from its coordinate to a voxel on its surface and is attained, the average is the mean over exactly the surface voxels, and it is not below the minimum. A voxel is on the surface when it is outside the vacuum, in a basin of the feature, and next to a voxel outside the vacuum and outside the feature. The result does not depend on the content of the uninitialised map.", "quantifier": "all grids, labels, vacuum masks, features that partition the basins, and orders of the parallel loop", "why_tests_cant": "all labelings of all grid sizes", "anchors": ["src/baderkit/core/labelers/elf_labeler/elf_labeler.py:1516-1558", "src/baderkit/core/labelers/elf_labeler/elf_labeler_numba.py:11-124"]}
{"id": "C187", "title": "Shells searched around an unassigned voxel", "statement": "For BadELF, the offsets searched around a voxel that no partition contains are exactly the grid offsets whose distance lies between twice the largest distance from a voxel's centre to its corner (plus 2e-12) and the smaller of half the shortest lattice vector and 3 Angstrom, once each and ordered by distance. The search stops only at the end of a complete shell of equal distances, and a neighbour labelled with an atom is found exactly when one exists strictly closer than the farthest offset: the outermost shell is never examined.", "quantifier": "For all grids, lattices, sorting functions and labels.", "why_tests_cant": "A test looks at one lattice; whether the breaks fall exactly at the ends of shells depends on the coincidences of distances in every lattice.", "anchors": ["src/baderkit/core/badelf/badelf.py:514-530", "src/baderkit/core/utilities/basic.py:200-273"]}
{"id": "C188", "title": "BadELF and VoronELF distribute all of the charge and volume", "statement": "When every voxel outside the vacuum and outside all partitions has a labelled neighbour within the searched shells, Badelf's assignment finishes for the methods badelf and voronelf, reports one charge and one volume per site of the structure with electrides, the charges add up to the sum of the charge density outside the vacuum divided by the number of grid points, and the volumes to the cell volume times the fraction of voxels outside the vacuum.", "quantifier": "For all grids, positive densities, plane sets ordered by site, orders of the parallel loops and sorting functions.", "why_tests_cant": "A test compares the sum for a few systems; a share lost or counted twice at a tie or at the boundary of a partition occurs only for particular geometries.", "anchors": ["src/baderkit/core/badelf/badelf.py:462-560", "src/baderkit/core/badelf/badelf_numba.py:10-322"]}
{"id": "C189", "title": "Electrides keep exactly their basins in BadELF", "statement": "In the method badelf, a voxel is labelled with an electride exactly if the zero-flux partitioning gives it to that electride, and the electride's charge and volume are the sums over exactly these voxels: dividing planes and shared voxels never give anything to, or take anything from, an electride.", "quantifier": "For all runs that finish, all grids, zero-flux labels and planes belonging to atoms.", "why_tests_cant": "Tests compare totals of an example; they cannot exclude that some arrangement of planes moves voxels between atoms and electrides.", "anchors": ["src/baderkit/core/badelf/badelf.py:489-512", "src/baderkit/core/badelf/badelf_numba.py:41-104", "src/baderkit/core/badelf/badelf_numba.py:119-276"]}
{"id": "C190", "title": "Labels of atom_labels index the charges", "statement": "Every non-negative label in Badelf.atom_labels is the index of an entry of Badelf.charges, and the method voronelf finishes for every labelled system.", "quantifier": "For all labelled systems and methods.", "why_tests_cant": "Only systems with a bond feature (covalent or metallic) show the difference.", "anchors": ["src/baderkit/core/badelf/badelf.py:364-373", "src/baderkit/core/badelf/badelf.py:481-487", "src/baderkit/core/badelf/badelf.py:509-546"]}
{"id": "C191", "title": "Feature files hold one feature each", "statement": "ElfLabeler.write_feature_basins writes, for every requested feature, a file named prefix_f followed by the index, which keeps the data in the basins of that feature and is 0 elsewhere, with the structure and, if asked for, one dummy atom per requested feature; no other file changes and different features never share a name. When no basin belongs to two features, the files of write_all_features add up to the data wherever the basin belongs to a feature, and to 0 elsewhere (for instance in the vacuum).", "quantifier": "all labelers, lists of valid indices, prefixes, choices of data and prior files", "why_tests_cant": "A test looks at the files of one system; that no name ever collides and no file is touched is a statement about all indices, prefixes and prior files.", "anchors": ["src/baderkit/core/labelers/elf_labeler/elf_labeler.py: ElfLabeler.write_feature_basins, write_all_features, get_feature_structure_by_index"]}
{"id": "C192", "title": "Union files hold the chosen features", "statement": "write_feature_basins_sum writes one file prefix_fsum, which keeps the data exactly in the basins of the requested features; write_features_by_type_sum does so for exactly the features whose type was requested. No other file changes.", "quantifier": "all labelers, index lists, type lists, prefixes and prior files", "why_tests_cant": "A test checks a few selections; the statement is about every selection, including empty and repeated ones.", "anchors": ["src/baderkit/core/labelers/elf_labeler/elf_labeler.py: ElfLabeler.write_feature_basins_sum, write_features_by_type_sum, feature_indices_by_type"]}
{"id": "C193", "title": "Files by type hold the features of the type", "statement": "After write_features_by_type the file named prefix and symbol of the type holds the reference data exactly in the basins of the features of that type, for the last requested type with this symbol; no file changes except the ones with these names and the temporary ones.", "quantifier": "all labelers, lists of types, prefixes and prior files", "why_tests_cant": "The result depends on the order of the requested types and on files that are renamed over one another.", "anchors": ["src/baderkit/core/labelers/elf_labeler/elf_labeler.py: ElfLabeler.write_features_by_type"]}
{"id": "C194", "title": "Every requested type keeps its file", "statement": "REFUTED: after write_features_by_type the file of each requested type holds the data of the features of that type. Types that share a dummy symbol (covalent, covalent-metallic and shallow covalent-metallic; electride and bare electron) are written to the same name, so that only the last is left.", "quantifier": "all labelers and lists of types", "why_tests_cant": "The loss shows only when two types with the same symbol are requested together.", "anchors": ["src/baderkit/core/labelers/elf_labeler/elf_labeler.py: ElfLabeler.write_features_by_type", "src/baderkit/core/labelers/bifurcation_graph/enum_and_styling.py: FEATURE_DUMMY_ATOMS"]}
{"id": "C195", "title": "Charge files by type hold the charge", "statement": "REFUTED: write_features_by_type(write_reference=False) writes the charge density. write_reference only chooses the prefix and is not passed on, so a file named after the charge density holds the reference data.", "quantifier": "all labelers and types", "why_tests_cant": "The file exists, has the expected name and the expected zeros, so only a comparison of values shows it.", "anchors": ["src/baderkit/core/labelers/elf_labeler/elf_labeler.py: ElfLabeler.write_features_by_type"]}
{"id": "C196", "title": "Files of both spins are kept apart", "statement": "SpinElfLabeler.write_all_features writes every feature of the up system to prefix_f{i}_up and every feature of the down system to prefix_f{i}_down (to prefix_f{i} when the spins are equal), each with its own data and labels; write_features_by_type does the same per type for unequal spins and write_features_by_type_sum for the union. No file overwrites another although both spins use the same temporary name.", "quantifier": "all pairs of labelers with any numbers of features, types, prefixes and prior files", "why_tests_cant": "The files of the two spins pass through the same temporary names; that none is lost depends on all names and orders.", "anchors": ["src/baderkit/core/labelers/elf_labeler/elf_labeler_spin.py: SpinElfLabeler.write_all_features, write_features_by_type, write_features_by_type_sum"]}
{"id": "C197", "title": "Equal spins are written for every type", "statement": "REFUTED: SpinElfLabeler.write_features_by_type writes a file for each requested type when the spins are equal. The loop returns after the first type; exactly that file is written.", "quantifier": "all equal spin labelers and lists of types", "why_tests_cant": "Tests with a single type or with unequal spins pass.", "anchors": ["src/baderkit/core/labelers/elf_labeler/elf_labeler_spin.py: SpinElfLabeler.write_features_by_type"]}
{"id": "C198", "title": "Atom files of both spins are kept apart", "statement": "For unequal spins SpinBadelf.write_atom_volumes writes, for every requested index, the up file and the down file with the data of that spin, which are 0 on the voxels labelled with the index and keep the data elsewhere (compare C138), independently of the other requested indices. write_all_atom_volumes does so for every site.", "quantifier": "all pairs of assignments, index lists, prefixes and prior files", "why_tests_cant": "The single-spin function changes its grid from file to file (C138); that the files of this one do not depend on each other is a statement about all lists.", "anchors": ["src/baderkit/core/badelf/badelf_spin.py: SpinBadelf.write_atom_volumes, write_all_atom_volumes"]}
{"id": "C199", "title": "Atom files of equal spins have their name", "statement": "REFUTED: for equal spins SpinBadelf.write_atom_volumes writes prefix_a{i}. The file is written as prefix_temp_a{i} and never renamed.", "quantifier": "all equal spin assignments and index lists", "why_tests_cant": "The right data are written, only under another name, and only for equal spins.", "anchors": ["src/baderkit/core/badelf/badelf_spin.py: SpinBadelf.write_atom_volumes, write_all_atom_volumes"]}
{"id": "C200", "title": "Writing spins leaves other files alone", "statement": "REFUTED: SpinElfLabeler.write_all_features changes no file besides the _up and _down files. For unequal spins it writes to the plain name first and renames it, so that an existing file prefix_f{i} (from ElfLabeler) is lost.", "quantifier": "all spin labelers and prior files", "why_tests_cant": "Only visible when files of the total system are already there.", "anchors": ["src/baderkit/core/labelers/elf_labeler/elf_labeler_spin.py: SpinElfLabeler.write_all_features"]}
{"id": "C201", "title": "A directory can be given as text", "statement": "REFUTED: write_feature_basins accepts the directory as str, as documented. The path is joined with the / operator, which text does not support.", "quantifier": "all labelers and indices", "why_tests_cant": "Tests that use the default or a Path pass.", "anchors": ["src/baderkit/core/labelers/elf_labeler/elf_labeler.py: ElfLabeler.write_feature_basins"]}
{"id": "C202", "title": "Written files are recognised and read back by from_dynamic", "statement": "A file written by write_vasp whose first lattice vector is below 1000 in every component is recognised by detect_format as VASP, a file written by write_cube (fewer than 10000 atoms, origin below 1000 bohr) as a cube file. from_dynamic then returns the grid that was written: the same structure to the printed digits and every data set to eleven digits. Only a file beginning with the hdf5 signature is taken for hdf5, and a binary file with it always is.", "quantifier": "all grids that can be written, with or without a given format, and all decodings of the text", "why_tests_cant": "The guess looks at the number of words of the third line only; which printed numbers keep their columns apart is a statement about all lattices.", "anchors": ["src/baderkit/core/utilities/file_parsers.py: detect_format", "src/baderkit/core/toolkit/grid.py: Grid.from_dynamic"]}
{"id": "C203", "title": "convert keeps the total data", "statement": "Converting a written VASP file to VASP or to cube writes a grid with the structure of the file and, as its only data, the total to eleven digits.", "quantifier": "all grids that can be written, and both output formats", "why_tests_cant": "A test converts one file; the statement is about every grid.", "anchors": ["src/baderkit/command_line/base.py: convert", "src/baderkit/core/toolkit/grid.py: Grid.from_dynamic, Grid.write"]}
{"id": "C204", "title": "Claim refuted: convert keeps all data of a file", "statement": "One would expect that converting a spin-polarised VASP file to the same format keeps its spin difference. It does not: convert reads the file with the default total_only=True, so the result has no second data set.", "quantifier": "a file exists for which the claim fails", "why_tests_cant": "A test would need to convert a spin-polarised file and read the result with total_only=False.", "anchors": ["src/baderkit/command_line/base.py: convert", "src/baderkit/core/toolkit/grid.py: Grid.from_vasp"]}
{"id": "C205", "title": "sum adds the data of two files", "statement": "The sum of two written VASP files of the same shape, both spin-polarised or both not, is a VASP file with the structure of the first and, for every data set, the sums of the values read from the two files, each to eleven digits the value written. Without an output format the sum is written in the format of the first file, whether given or guessed.", "quantifier": "all pairs of grids that can be written with the same shape and data sets", "why_tests_cant": "The statement is about all grids and composes writing, guessing the format, reading, adding and writing.", "anchors": ["src/baderkit/command_line/base.py: sum", "src/baderkit/core/toolkit/grid.py: Grid.linear_add"]}
{"id": "C206", "title": "Claim refuted: regrid keeps the format of its input", "statement": "The help text of regrid says that the input format is used if no output format is given. In fact every such result is a VASP file, because Grid.regrid does not pass on the source format: a cube file is turned into a VASP file.", "quantifier": "a file exists for which the claim fails; the output is a VASP file for all inputs", "why_tests_cant": "A test would need to regrid a cube file and check the format of the result.", "anchors": ["src/baderkit/command_line/base.py: regrid", "src/baderkit/core/toolkit/grid.py: Grid.regrid, Grid.write"]}
{"id": "C207", "title": "Names of the files of the two spins", "statement": "split writes to the stem of the name followed by _up or _down and the suffix, provided that the stem neither begins nor ends with a character that occurs in the suffix; a name without a full stop is kept whole. The two names always differ.", "quantifier": "all file names", "why_tests_cant": "The statement quantifies over all names.", "anchors": ["src/baderkit/command_line/base.py: split"]}
{"id": "C208", "title": "Claim refuted: split appends _up and _down to the stem", "statement": "Because str.strip removes characters rather than a suffix, spin.vasp is split into in_up.vasp and in_down.vasp; and for a_up._up the spin-up file is the input itself, which is overwritten.", "quantifier": "names exist for which the claim fails", "why_tests_cant": "A test with CHGCAR passes.", "anchors": ["src/baderkit/command_line/base.py: split"]}
{"id": "C209", "title": "Name of the regridded file", "statement": "Without an output path regrid writes to the stem of the name followed by _regrid (the suffix is dropped), and never to the file it read.", "quantifier": "all file names", "why_tests_cant": "The statement quantifies over all names.", "anchors": ["src/baderkit/command_line/base.py: regrid"]}
{"id": "C210", "title": "Lists of indices on the command line", "statement": "A non-empty list, with any brackets and blanks around it and its entries separated by a comma and any number of blanks, is read as its entries: as integers if all are integers (in particular the printed form of every list of integers is read back), otherwise as names. The print option of run then makes exactly the call it names with these entries, and one call per entry for sel_spec. Only integer literals count as integers: a sign, then groups of digits with single underscores between them.", "quantifier": "all lists of entries without commas and brackets, and all numbers of blanks", "why_tests_cant": "The statement quantifies over all lists, integers and ways to write them.", "anchors": ["src/baderkit/command_line/base.py: run, badelf, label"]}
{"id": "C211", "title": "Claim refuted: without indices nothing is selected", "statement": "The default for the list of indices is the empty text, which is read as a list with one entry, the empty name. So run -p sel_atoms without indices asks for the volume of one atom with an empty name, and sel_spec for one species with an empty name; the later test for None never applies.", "quantifier": "the default value is a counterexample", "why_tests_cant": "A test would need to run the command without indices and check that no file appears.", "anchors": ["src/baderkit/command_line/base.py: run, badelf, label"]}
{"id": "C212", "title": "Tolerances on the command line", "statement": "float_or_bool returns True exactly for true, t, yes and y and False exactly for false, f, no and n, in any case; any other text is accepted exactly if it is a number, which is returned. The case of the letters does not matter.", "quantifier": "all texts", "why_tests_cant": "The statement quantifies over all texts.", "anchors": ["src/baderkit/command_line/base.py: float_or_bool"]}
{"id": "C213", "title": "Unwrapped points are centred around their mean", "statement": "When the maxima of a group have periodic images that lie within half a cell of each other, the points examined by get_pt_ring_cage are these images minus their mean, whichever images were given and whichever maximum comes first.", "quantifier": "all lists of points with such images", "why_tests_cant": "The statement quantifies over all sets of points and all choices of images.", "anchors": ["src/baderkit/core/labelers/bifurcation_graph/graph_numba/bifurcation_base.py: get_pt_ring_cage"]}
{"id": "C214", "title": "Points, rings and cages", "statement": "get_pt_ring_cage returns point for fewer than three maxima and ring for exactly three. More maxima with images within half a cell of each other, not all coinciding, are a ring whenever the images lie in a plane, and a ring only if the spread of the images about some plane through their mean is below the tolerance relative to their largest spread, for singular values computed to a relative error below the tolerance. When every plane is exceeded by more than that, the result is a cage.", "quantifier": "all lists of points with such images, tolerances and singular values of that precision", "why_tests_cant": "The statement quantifies over all positions of the maxima.", "anchors": ["src/baderkit/core/labelers/bifurcation_graph/graph_numba/bifurcation_base.py: get_pt_ring_cage", "src/baderkit/core/labelers/bifurcation_graph/nodes.py: make_irreducible"]}
{"id": "C215", "title": "The table of atoms", "statement": "Bader.write_atom_tsv writes a header with the named columns and then, in the order of the atoms, one line per atom whose tab-separated cells are its label, fractional position, charge, volume and distance to the surface, each number within 1/200000; every cell of a column has the width of its header cell. After an empty line follow the vacuum charge and volume and the total number of electrons and volume, each on its own line. Lists of different lengths are never written.", "quantifier": "all labels without tabs, newlines or outer spaces, all lists of positions and numbers", "why_tests_cant": "Tests compare one file; rounding, negative numbers and widths vary with the values.", "anchors": ["src/baderkit/core/bader/bader.py:1414-1514"]}
{"id": "C216", "title": "The table of basins", "statement": "Bader.write_basin_tsv writes one line per significant basin, in the order of the basins and no other, with the label of the atom the basin belongs to, its position, charge, volume, distance to the surface and to the atom, under headers of the same widths. The table fails when a basin shown belongs to an atom that is not in the list of labels; a negative atom index counts from the end.", "quantifier": "all lists of basins, all masks, all labels without tabs, newlines or outer spaces", "why_tests_cant": "Tests use few masks; a row taken from another basin would show only for particular masks.", "anchors": ["src/baderkit/core/bader/bader.py:1439-1463", "src/baderkit/core/bader/bader.py:1516-1559"]}
{"id": "C217", "title": "The tables of BadELF", "statement": "Badelf.write_atom_tsv writes the table of atoms followed by an empty line and the total number of electrons; SpinBadelf writes the same without the distances to the surface.", "quantifier": "all labels without tabs, newlines or outer spaces, all lists of equal lengths", "why_tests_cant": "As for the table of atoms.", "anchors": ["src/baderkit/core/badelf/badelf.py:1424-1502", "src/baderkit/core/badelf/badelf_spin.py:922-1007"]}
{"id": "C218", "title": "Tables for each spin", "statement": "SpinBadelf.write_atom_tsv with write_spin, given a path, writes to three different files, for both spins and their sum, named after the path.", "quantifier": "all paths", "why_tests_cant": "A test uses one name.", "anchors": ["src/baderkit/core/badelf/badelf_spin.py:947-1006"]}
{"id": "C219", "title": "Claim refuted: write_spin works with the default path", "statement": "One would expect that SpinBadelf.write_atom_tsv(write_spin=True) works whenever the same path works without write_spin. Given a text, which is the default, it raises.", "quantifier": "a path exists for which the claim fails", "why_tests_cant": "The default argument is not tested with write_spin.", "anchors": ["src/baderkit/core/badelf/badelf_spin.py:947-1006"]}
{"id": "C220", "title": "The Voronoi transforms list exactly the facets among neighbours two voxels away", "statement": "For every lattice, grid shape and Voronoi construction that meets its definition for the central point, point_neighbor_voronoi_transforms returns; every listed transform is a non-zero step of at most two voxels per axis, its distance is the length of that step in Cartesian space, its area is that of its vertices, and each vertex is as far from the point as from the neighbour and no nearer to any point of the 5x5x5 box; every neighbour in the box that has a true facet (some place nearer to it and the point than to all others) is listed, and together with it the opposite neighbour.", "quantifier": "All lattices, all grid shapes, all Voronoi oracles that meet the specification, all neighbours", "why_tests_cant": "Tests compare a few lattices with stored lists; a wrong neighbour, a swapped ridge or a missing facet shows only on lattices with other facets.", "anchors": ["src/baderkit/core/toolkit/grid.py:361-410"]}
{"id": "C221", "title": "A box of two voxels is large enough for reduced grids", "statement": "If the grid has three steps that generate it, enclose with the step leading back no acute angle (an obtuse superbase), and whose sums stay within two voxels per axis, as for every grid with perpendicular axes, then the vertices returned by point_neighbor_voronoi_transforms lie no nearer to any grid point of the infinite lattice, and every neighbour of the infinite lattice with a true facet is listed.", "quantifier": "All lattices with an obtuse superbase in the box, all Voronoi oracles that meet the specification, all points of the infinite lattice", "why_tests_cant": "The claim is about an infinite lattice and all cells of a class; a test can only look at single cells.", "anchors": ["src/baderkit/core/toolkit/grid.py:361-410"]}
{"id": "C222", "title": "Claim refuted: two voxels are enough for every cell", "statement": "The claim that point_neighbor_voronoi_transforms lists every neighbour with a true facet for every cell is false: in the skew cell (1,0,0),(5,1,0),(0,0,1) the neighbour at (-5,1,0) voxels shares a true facet with the origin, but whatever the Voronoi construction returns it is not listed, because only steps up to two voxels are tried.", "quantifier": "One witness cell; all Voronoi oracles and square roots", "why_tests_cant": "The cells of the tests are reduced, so the missing facets do not occur there.", "anchors": ["src/baderkit/core/toolkit/grid.py:361-410"]}
{"id": "C223", "title": "The area of a Voronoi facet is the area of its polygon", "statement": "For a flat convex facet with corners in order of the border, the area computed by the triangle fan equals half the length of the vector area (the sum of the cross products of successive corners along the border), up to the error of the square roots; it does not depend on the corner with which the list begins beyond that error.", "quantifier": "All convex flat polygons with any number of corners, all square roots with a bounded error", "why_tests_cant": "Tests check squares and hexagons of a few lattices; the fan formula is wrong only for certain corner counts or starting corners if implemented with an off-by-one error.", "anchors": ["src/baderkit/core/toolkit/grid.py:361-410"]}
{"id": "C224", "title": "Heights in the bifurcation plot", "statement": "For every forest with unique keys in which reducible nodes have children, BifurcationGraph.get_plot draws the irreducible nodes at equal distances from 0 to 2 in the depth-first order of the tree, every reducible node at the mean height of its children, and all nodes between 0 and 2.", "quantifier": "all forests of any depth and width, all orders in which the graph holds its nodes", "why_tests_cant": "Tests draw a few graphs; deep or uneven trees and several roots have other positions.", "anchors": ["src/baderkit/core/labelers/bifurcation_graph/graph.py:678-858"]}
{"id": "C225", "title": "Lines in the bifurcation plot do not cross", "statement": "If the drawn value of each child is above that of its parent, the lines drawn are exactly those from each node to its children, first upright, then to the right; two lines from different nodes share no point except the place of a node at which one ends and the other begins; lines from the same node share only points of the upright part.", "quantifier": "all forests of any depth and width, all pairs of lines, all points", "why_tests_cant": "Crossings would show only for certain shapes of trees; the comment in the code claims it for all.", "anchors": ["src/baderkit/core/labelers/bifurcation_graph/graph.py:678-858"]}
{"id": "C226", "title": "Boxes in the bifurcation plot are apart", "statement": "Each irreducible node has exactly one box, beginning at its lowest value and ending at its highest (at least 0.01 wide), centred on its height; no two boxes share a point, and a line meets a box only where it ends at its node.", "quantifier": "all forests of any depth and width, all lines, boxes and points", "why_tests_cant": "The heights of the boxes depend on the number of leaves; overlaps would show only for certain numbers.", "anchors": ["src/baderkit/core/labelers/bifurcation_graph/graph.py:678-858"]}
{"id": "C227", "title": "Images of atoms at the border of the cell", "statement": "For a tolerance of at most 1/2 and an atom whose fractional coordinates lie between -tol and 1+tol, get_edge_atom_fracs gives exactly those of its lattice translates that lie in the same range, each once.", "quantifier": "all coordinates in the range, all tolerances up to 1/2, all translates", "why_tests_cant": "Corners, edges, faces and the two sides of each are different branches; coordinates just inside or outside the tolerance are never all tried.", "anchors": ["src/baderkit/plotting/core/plotter.py:430-455"]}
{"id": "C228", "title": "Camera of a Miller plane", "statement": "For every lattice of nonzero volume and all indices, get_camera_position_from_miller looks at the middle of the cell, along a vector of length one perpendicular to the plane, from at least the largest radius away; the vector that is up is perpendicular to the view up to the error of the square root for every rotation, and not zero without rotation; the indices 0 0 0 stand for 1 0 0.", "quantifier": "all lattices, radii, indices and rotations, all square roots with a bounded error", "why_tests_cant": "The fallback to the y axis is taken only for views along z, and the perpendicularity is lost in skew lattices if the wrong vector is used.", "anchors": ["src/baderkit/plotting/core/plotter.py:457-529"]}
{"id": "C229", "title": "Outline of the cell", "statement": "get_lattice_mesh draws twelve lines; each goes from a corner of the cell along one lattice vector to another corner, and every such pair of corners is joined.", "quantifier": "all lattices", "why_tests_cant": "A wrong pair in the table of edges shows as a diagonal only to the eye.", "anchors": ["src/baderkit/plotting/core/plotter.py:583-618"]}
{"id": "C230", "title": "Values and points of the structured grid agree", "statement": "The points and the values GridPlotter hands to pyvista have the same length and order: entry i+(nx+1)(j+(ny+1)k) is the point (i/nx, j/ny, k/nz) of the cell and the value of the grid there, where the last layer on each axis repeats the first.", "quantifier": "all grid shapes, all values, all points", "why_tests_cant": "Fortran and C order agree on cubes of equal values; errors show only for uneven shapes and data.", "anchors": ["src/baderkit/plotting/core/plotter.py:846-928"]}
{"id": "C231", "title": "Hidden basins", "statement": "BaderPlotter draws a point with its value exactly when its basin or its atom is visible and with -1 otherwise; the basins visible at the start are those of atom 0; if no value is negative, -1 lies below the isosurface, whatever value it is set to.", "quantifier": "all grids, labels and sets of visible basins and atoms", "why_tests_cant": "Tests look at one picture; the alignment of labels, mask and values for all shapes does not show.", "anchors": ["src/baderkit/plotting/core/plotter.py:1397-1420", "src/baderkit/plotting/core/plotter.py:1464-1490"]}
{"id": "C232", "title": "Claim refuted: hidden regions are never drawn", "statement": "The claim that setting hidden regions to -1 keeps them below every isosurface that can be chosen is false: with values 5 and -2 the isosurface can be set to -3/2, and the hidden point, drawn with -1, lies above it.", "quantifier": "One witness grid", "why_tests_cant": "Charge densities in tests are positive, where the claim holds (C231).", "anchors": ["src/baderkit/plotting/core/plotter.py:1464-1490"]}
{"id": "C233", "title": "Range and value of the isosurface", "statement": "Whatever values are set in whatever order, min_val stays at or below max_val if it was; iso_val is brought into the range when it is set, and values that fit are taken as they are; at the start the range covers the data up to a ten millionth of the least value.", "quantifier": "all sequences of settings", "why_tests_cant": "The order of the settings matters; tests try one.", "anchors": ["src/baderkit/plotting/core/plotter.py:883-889", "src/baderkit/plotting/core/plotter.py:1028-1055", "src/baderkit/plotting/core/plotter.py:1143-1150"]}
{"id": "C234", "title": "Claim refuted: the isosurface always lies in the range", "statement": "The claim that iso_val always lies between min_val and max_val is false: after min_val is raised above iso_val it lies below the range; and for data that are one positive number min_val starts above max_val.", "quantifier": "Two witnesses", "why_tests_cant": "Needs a certain order of settings, or constant data.", "anchors": ["src/baderkit/plotting/core/plotter.py:883-889", "src/baderkit/plotting/core/plotter.py:1028-1055"]}
{"id": "C235", "title": "Atoms cut by a slice are drawn", "statement": "get_slice_plot draws exactly the atoms whose centre is within one radius of the plane; every atom whose drawn sphere is cut by the plane is among them.", "quantifier": "all planes, centres and radii", "why_tests_cant": "Atoms at the border distance are rarely in a test.", "anchors": ["src/baderkit/plotting/core/plotter.py:1327-1351"]}
{"id": "C236", "title": "Claim refuted: only atoms whose sphere is sliced", "statement": "The claim of the docstring of get_slice_plot that only atoms whose sphere mesh is sliced are included, and all of them, is false: spheres are drawn with 0.3 times the radius but tested with the whole; and an atom whose image at the border of the cell is cut is left out.", "quantifier": "Two witnesses", "why_tests_cant": "Needs a plane between 0.3 and 1 times the radius from an atom, or at the far side of the cell.", "anchors": ["src/baderkit/plotting/core/plotter.py:1327-1351"]}
{"id": "C237", "title": "Claim refuted: the camera fits the actors", "statement": "The claim that _set_camera_tight sets the scale such that the whole bounding box is seen is false: looking at a box of 3 by 4 by 1 along (3,4,0) the projection of its diagonal is zero and the corners are outside of the picture.", "quantifier": "One witness view", "why_tests_cant": "Views along the axes fit (C238).", "anchors": ["src/baderkit/plotting/core/plotter.py:800-828"]}
{"id": "C238", "title": "The camera fits the actors for views of one sign", "statement": "If the components of the up vector have one sign and those of the horizontal vector have one sign, every point of the bounding box is seen after _set_camera_tight with its middle in the middle.", "quantifier": "all boxes, aspects and points", "why_tests_cant": "Other views do not fit (C237); tests of views along axes cannot tell.", "anchors": ["src/baderkit/plotting/core/plotter.py:800-828"]}
{"id": "C239", "title": "Atoms as they are set", "statement": "After setting the visible atoms or the colours the plot shows what a new plot of the settings would show; after setting the radii too, except for which atoms are seen; radii that are not positive become 0.01; the table set as atom_df is the table read from it.", "quantifier": "all scenes, all settings, in any order", "why_tests_cant": "Only changed atoms are redrawn, so the result depends on the history.", "anchors": ["src/baderkit/plotting/core/plotter.py:95-118", "src/baderkit/plotting/core/plotter.py:246-347", "src/baderkit/plotting/core/plotter.py:620-664"]}
{"id": "C240", "title": "Claim refuted: hidden atoms stay hidden", "statement": "The claim that an atom that is not in visible_atoms is not seen is false: if atom_df hides an atom and changes its radius, the new mesh of the atom is visible.", "quantifier": "One witness scene", "why_tests_cant": "Needs both changes in one table.", "anchors": ["src/baderkit/plotting/core/plotter.py:246-285", "src/baderkit/plotting/core/plotter.py:336-347"]}
{"id": "C241", "title": "Gradient from all neighbours is a least-squares fit", "statement": "If the matrix passed in is the pseudo-inverse of the matrix of directions, the Cartesian gradient of get_gradient_overdetermined has no larger a sum of squared residuals against the slopes along all neighbours than any other vector; where the values around a voxel grow linearly, across the border of the cell too, it is exactly the gradient they grow by, in voxels.", "quantifier": "all grids with two voxels or more per axis, all neighbour tables, all slopes, all vectors to compare with", "why_tests_cant": "A wrong sign or pairing of neighbour and column still gives a gradient that points uphill on the smooth densities tests use.", "anchors": ["src/baderkit/core/bader/methods/neargrid/neargrid_numba.py:68-124"]}
{"id": "C242", "title": "Pointers from the gradient of all neighbours lead upwards", "statement": "After get_gradient_pointers_overdetermined, in whatever order the parallel loop runs, every voxel that is neither vacuum nor a maximum holds the number of a strictly higher voxel that is not vacuum: the one its rounded gradient leads to if that is higher, and its steepest neighbour if not; other labels are unchanged; no component of a stored gradient exceeds 1, and the climb along the stored gradients ends at exactly one maximum.", "quantifier": "all grids with two voxels or more per axis, data, matrices, vacuum below the rest, orders of the loop", "why_tests_cant": "No test switches this gradient on; a pointer that does not lead upwards closes a cycle and hangs.", "anchors": ["src/baderkit/core/bader/methods/neargrid/neargrid_numba.py:245-374", "src/baderkit/core/bader/methods/neargrid_weight/neargrid_weight_method.py:57-79"]}
{"id": "C243", "title": "Claim refuted: the near-grid method can use the gradient of all neighbours", "statement": "The claim that NeargridMethod runs with _use_overdetermined set is false: it takes three values from a function that returns two.", "quantifier": "All inputs; the unpacking always fails.", "why_tests_cant": "No test switches this gradient on.", "anchors": ["src/baderkit/core/bader/methods/neargrid/neargrid_method.py:48-70", "src/baderkit/core/bader/methods/neargrid/neargrid_numba.py:245-374"]}
{"id": "C244", "title": "The plot shows what is ticked", "statement": "Whatever boxes are clicked in the Basins tab, in whatever order, the plotter shows exactly the basins whose boxes are ticked, each once, and at the start those of atom 0; the same holds for atoms in the Atoms tab. Clicking the box of an atom or a species gives all boxes below it its new state and changes no other; clicking one of those flips only it.", "quantifier": "all structures, all assignments of basins to atoms, all sequences of clicks", "why_tests_cant": "The boxes send signals to each other one after the other, and the plotter is set at each step; the window has no tests.", "anchors": ["src/baderkit/plotting/gui/tabs/basin_tab.py:42-110", "src/baderkit/plotting/gui/tabs/atom_tab.py:104-110", "src/baderkit/plotting/gui/tabs/atom_tab.py:155-161", "src/baderkit/plotting/gui/tabs/atom_tab.py:189-194"]}
{"id": "C245", "title": "Radii and colours of the Atoms tab", "statement": "Whenever a radius is committed the plotter is given the radii of all atom boxes, all between 0.01 and 10; a new radius for a species is given to all its atoms and to no other. The colours of the plotter are those of the boxes as soon as one was set; a colour for a species is given to all its atoms and to no other.", "quantifier": "all sequences of edits", "why_tests_cant": "The state depends on the order of edits of species and atoms; the window has no tests.", "anchors": ["src/baderkit/plotting/gui/tabs/atom_tab.py:87-102", "src/baderkit/plotting/gui/tabs/atom_tab.py:133-153", "src/baderkit/plotting/gui/tabs/atom_tab.py:175-187"]}
{"id": "C246", "title": "Claim refuted: a committed radius of a species holds for its atoms", "statement": "The claim that after committing a radius for a species all its atoms have it is false: the box sends nothing if it held that value already, so atoms that were changed on their own keep theirs.", "quantifier": "One witness: one atom set to 2, then its species committed at the 1 it shows.", "why_tests_cant": "The value shown for the species is right, only the atoms differ.", "anchors": ["src/baderkit/plotting/gui/tabs/atom_tab.py:87-102", "src/baderkit/plotting/gui/tabs/atom_tab.py:133-145"]}
{"id": "C247", "title": "The run button", "statement": "After an edit of a path the button can be pressed exactly if both files exist, where an empty text stands for the current directory; if no run fails and nothing is edited during a run, the button cannot be pressed while a run is going on and no running thread is dropped.", "quantifier": "all file systems, all sequences of edits, presses and results", "why_tests_cant": "Depends on the order of signals of two threads.", "anchors": ["src/baderkit/plotting/gui/tabs/bader_tab.py:89-140"]}
{"id": "C248", "title": "Claim refuted: Bader runs only with a charge file", "statement": "The claim that the button can be pressed only if a charge file was chosen is false: the empty path is the current directory, which exists.", "quantifier": "One witness: a path that is typed and deleted.", "why_tests_cant": "The button is disabled at the start, before the first edit.", "anchors": ["src/baderkit/plotting/gui/tabs/bader_tab.py:89-98"]}
{"id": "C249", "title": "Claim refuted: one run at a time", "statement": "The claim that a new run never replaces a thread that is still running is false: after an error nothing ends the thread, and an edit during a run makes the button ready again.", "quantifier": "Every state with the button ready, for errors; one witness for edits.", "why_tests_cant": "Needs a run that fails, or typing while one is going on.", "anchors": ["src/baderkit/plotting/gui/tabs/bader_tab.py:89-140", "src/baderkit/plotting/gui/tabs/bader_tab.py:166-197"]}
{"id": "C250", "title": "Exported basins", "statement": "The values written by export_basins are those of the reference grid where the basin of the voxel is visible and 0 elsewhere. A name without a dot gets the ending of the chosen filter and its format; a name with a known ending is written in that format, in whatever directory, whatever filter was chosen.", "quantifier": "all grids, labels, sets of basins and names", "why_tests_cant": "The export is behind a dialog and has no tests.", "anchors": ["src/baderkit/plotting/gui/tabs/export_tab.py:99-136"]}
{"id": "C251", "title": "Claim refuted: the chosen grid is exported", "statement": "The claim that export_basins writes the grid that was chosen is false: a method is compared with a text, so the reference is always written.", "quantifier": "All inputs; one witness where the two grids differ.", "why_tests_cant": "Both grids are the same if no reference was given.", "anchors": ["src/baderkit/plotting/gui/tabs/export_tab.py:122-134"]}
{"id": "C252", "title": "Claim refuted: any answer of the dialog can be used", "statement": "The claim that export_basins can deal with any answer of the dialog is false: a cancelled dialog raises, and so does a name without an ending in a directory with a dot.", "quantifier": "All inputs for the cancelled dialog, one witness for the directory.", "why_tests_cant": "Needs a dialog.", "anchors": ["src/baderkit/plotting/gui/tabs/export_tab.py:99-136"]}
{"id": "C253", "title": "Neighbour pairs and radii do not depend on the order of reading", "statement": "For a labeler whose labelling ends, each of nearest_neighbor_data, atom_nn_elf_radii, atom_elf_radii, their types and the versions with electrides gives one fixed answer: the results of the neighbour search (with or without electrides), or the smallest radius per site rounded to ten digits. The answer is the same whatever getters were read before, and no read raises.", "quantifier": "All results of the searches, all sorting functions, all histories of reads of the ten getters.", "why_tests_cant": "The getters fill eleven attributes lazily and call one another; the histories are unbounded.", "anchors": ["src/baderkit/core/labelers/elf_labeler/elf_labeler.py:405-620", "src/baderkit/core/labelers/elf_labeler/elf_labeler.py:2036-2133"]}
{"id": "C254", "title": "Claim refuted: the radius types with electrides match the radii with electrides", "statement": "The claim that atom_nn_elf_radii_types_e has one entry per entry of atom_nn_elf_radii_e is false: it returns the types found without electrides, whatever was read before.", "quantifier": "One witness labeler with two atoms and one electride, all histories.", "why_tests_cant": "The lists agree for every structure without electrides.", "anchors": ["src/baderkit/core/labelers/elf_labeler/elf_labeler.py:606-620"]}
{"id": "C255", "title": "Claim refuted: a failed labelling keeps failing", "statement": "The claim that reads after a labelling that raised also raise is false: the graph is stored before the radii and features are done, so that a second read of atom_nn_elf_radii returns the stored radii, or None if the failure came during the search.", "quantifier": "One witness for each of the two kinds of failure.", "why_tests_cant": "Needs a failure inside the labelling followed by another read of the same object.", "anchors": ["src/baderkit/core/labelers/elf_labeler/elf_labeler.py:2036-2133", "src/baderkit/core/labelers/elf_labeler/elf_labeler.py:277-279"]}
{"id": "C256", "title": "Claim refuted: reading the common pairs leaves the down spin unchanged", "statement": "The claim that nearest_neighbor_data of the spin labeler leaves the down labeler's answers alone is false: it stores the pairs of the up spin in the down labeler, whose own pairs are then lost although its radii remain in the old order.", "quantifier": "One witness with the pairs of the two spins in different orders.", "why_tests_cant": "Needs spins whose searches find the pairs in different orders, and a particular order of reads.", "anchors": ["src/baderkit/core/labelers/elf_labeler/elf_labeler_spin.py:123-142"]}
{"id": "C257", "title": "Claim refuted: the mean radius of a pair is the mean over the spins of that pair", "statement": "The claim that the entry of the spin labeler's atom_nn_elf_radii for a pair is the mean of the two spins' radii of that pair is false: entries are averaged by place, and the spins may list the pairs in different orders.", "quantifier": "One witness with two atoms.", "why_tests_cant": "Needs spins whose searches find the pairs in different orders.", "anchors": ["src/baderkit/core/labelers/elf_labeler/elf_labeler_spin.py:163-204", "src/baderkit/core/labelers/elf_labeler/elf_labeler_spin.py:123-142"]}
{"id": "C258", "title": "The spin labeler and its two labelers answer independently of the order of reading", "statement": "If both labellings end and have equally many atoms and pairs, reads of the spin labeler give the up spin's pairs, the means, place by place, of the rounded smallest radii and of the neighbour radii, and the types 'covalent' where either spin has it. Reads of the up labeler give its own answers. Reads of the down labeler give its own radii and types, and also its own pairs and electride radii if both spins found the same pairs. This holds after any history of reads of all three objects.", "quantifier": "All pairs of labelers, all histories of reads of the three objects.", "why_tests_cant": "Three objects share state; the histories are unbounded.", "anchors": ["src/baderkit/core/labelers/elf_labeler/elf_labeler_spin.py:123-226", "src/baderkit/core/labelers/elf_labeler/elf_labeler.py:405-620"]}
{"id": "C259", "title": "Mean radii of pairs are right when the spins list the same pairs", "statement": "If both spins list the same pairs in the same order, the entry of the spin labeler's atom_nn_elf_radii at the place of a pair in nearest_neighbor_data is the mean of the radii that the two spins have for that pair, after any history.", "quantifier": "All pairs of labelers with the same list of pairs, all histories.", "why_tests_cant": "The histories are unbounded.", "anchors": ["src/baderkit/core/labelers/elf_labeler/elf_labeler_spin.py:123-142", "src/baderkit/core/labelers/elf_labeler/elf_labeler_spin.py:163-204"]}
{"id": "C260", "title": "A failure before the graph is stored repeats", "statement": "If the labelling raises before it stores the graph, every read of every getter raises, in any history.", "quantifier": "All labelers whose labelling fails before the graph is stored, all histories.", "why_tests_cant": "The histories are unbounded.", "anchors": ["src/baderkit/core/labelers/elf_labeler/elf_labeler.py:277-279", "src/baderkit/core/labelers/elf_labeler/elf_labeler.py:405-620", "src/baderkit/core/labelers/elf_labeler/elf_labeler.py:2036-2133"]}
{"id": "C261", "title": "BadELF results do not depend on the order of reading", "statement": "If every part of the calculation succeeds, each of charges, volumes, atom_labels, partitioning_planes, the electride dimensionalities and cutoffs, the surface distances, the electride counts and the totals gives the answer that belongs to the assignment for the object's method and splitting, whatever was read before, and no read raises. Settings assigned before the first read count as those of a new object.", "quantifier": "All results of the calculations, all settings, all histories of reads of thirteen getters.", "why_tests_cant": "The getters fill twelve attributes lazily and call one another; the histories are unbounded.", "anchors": ["src/baderkit/core/badelf/badelf.py:105-170", "src/baderkit/core/badelf/badelf.py:313-340", "src/baderkit/core/badelf/badelf.py:354-609", "src/baderkit/core/badelf/badelf.py:744-809", "src/baderkit/core/badelf/badelf.py:851-970", "src/baderkit/core/badelf/badelf.py:1019-1033"]}
{"id": "C262", "title": "BadELF answers always come from one assignment", "statement": "If every part of the calculation succeeds, then in any history of reads and of assignments to method and shared_feature_splitting_method there is one assignment of voxels, made with the settings in force at some moment and planes of a method in force at some moment, to which all answers (other than the planes) belong: charges of one assignment are never combined with labels, distances or electride counts of another.", "quantifier": "All results of the calculations, all initial settings, all histories of reads and assignments.", "why_tests_cant": "The histories are unbounded.", "anchors": ["src/baderkit/core/badelf/badelf.py:105-170", "src/baderkit/core/badelf/badelf.py:313-340", "src/baderkit/core/badelf/badelf.py:354-609", "src/baderkit/core/badelf/badelf.py:744-809", "src/baderkit/core/badelf/badelf.py:851-970", "src/baderkit/core/badelf/badelf.py:1019-1033"]}
{"id": "C263", "title": "Claim refuted: assigning the method has the effect of a new object", "statement": "The claim that after assigning method the results are those of a new object with that method is false: charges read before are returned again, and if only the planes were read before, the new method is applied to the planes of the old one, which gives labels of neither.", "quantifier": "One witness in which every calculation succeeds.", "why_tests_cant": "Needs two reads around an assignment of an attribute.", "anchors": ["src/baderkit/core/badelf/badelf.py:105-170", "src/baderkit/core/badelf/badelf.py:375-445", "src/baderkit/core/badelf/badelf.py:462-559"]}
{"id": "C264", "title": "Claim refuted: a BadELF getter that raised raises again", "statement": "The claim that a getter that raised once raises again is false: without electrides all_electride_dims stores a mark before it reads the labels, so that after a failure it returns None; with zero-flux partitioning atom_labels is stored before the charges, so that it can be read after the charges failed.", "quantifier": "One witness for each of the two getters.", "why_tests_cant": "Needs a failure followed by another read of the same object.", "anchors": ["src/baderkit/core/badelf/badelf.py:744-809", "src/baderkit/core/badelf/badelf.py:480-488"]}
{"id": "C265", "title": "Charges, volumes and their totals always answer alike, even when something fails", "statement": "Whatever parts of the calculation fail, charges, volumes, total_electron_number and total_volume either all raise at every read or give at every read the answer for the object's settings, in any history of reads of all getters.", "quantifier": "All results and failures of the calculations, all settings, all histories of reads.", "why_tests_cant": "The histories and the places of failure are unbounded.", "anchors": ["src/baderkit/core/badelf/badelf.py:105-170", "src/baderkit/core/badelf/badelf.py:313-340", "src/baderkit/core/badelf/badelf.py:354-609", "src/baderkit/core/badelf/badelf.py:744-809", "src/baderkit/core/badelf/badelf.py:851-970", "src/baderkit/core/badelf/badelf.py:1019-1033"]}
{"id": "C266", "title": "Pruning removes exactly the shallow reducible nodes", "statement": "For a freshly built well formed graph in which reducible domains start above their parents, _remove_shallow_reducible_nodes keeps a reducible node exactly if it is a root or its value range divided by the range of the nearest ancestor that is kept exceeds the cutoff. It keeps every irreducible node, adds none, and the new parent of every node is its nearest kept ancestor. It finishes whenever there is at most one reducible root and no reducible node has an empty range.", "quantifier": "for every graph, cutoff and argsort that sorts", "why_tests_cant": "The outcome depends on every ancestor decision before it and on depths cached while the maxima of parents change; tests see single trees.", "anchors": ["src/baderkit/core/labelers/bifurcation_graph/graph.py:612-634", "src/baderkit/core/labelers/bifurcation_graph/nodes.py:161-163", "src/baderkit/core/labelers/bifurcation_graph/nodes.py:262-288"]}
{"id": "C267", "title": "Combining collapses only domains whose leaves are all shallow, and leaves none", "statement": "For a well formed graph with nested values and positive depths, _combine_shallow_irreducible_nodes finishes with a graph in which every finite reducible node has an irreducible descendant whose depth divided by the depth of the node exceeds the cutoff. Every new irreducible node replaces a finite reducible node with the same key, basins, minimum and parent, all of whose original leaves had a depth ratio of at most the cutoff, and whose maximum is at least theirs. Every other node is still there unless it was replaced or lay below a replaced node. The same holds for pruning and combining one after the other on a freshly built graph, with the original value ranges as depths.", "quantifier": "for every graph, pair of cutoffs and argsort that sorts", "why_tests_cant": "Collapsed nodes become leaves of the nodes above them, so the outcome depends on the whole tree and on the order; tests see single trees.", "anchors": ["src/baderkit/core/labelers/bifurcation_graph/graph.py:612-676", "src/baderkit/core/labelers/bifurcation_graph/nodes.py:161-163", "src/baderkit/core/labelers/bifurcation_graph/nodes.py:245-328"]}
{"id": "C268", "title": "Stored symmetry belongs to the present sites", "statement": "While symmetry_kwargs is not assigned, no site is edited in place and no search fails, structure.spacegroup_analyzer is the analysis of the present sites after any history of adding, removing or replacing sites and of reads. symmetry_data (and equivalent_atoms) is the dataset of that same analysis, provided that after each change of the sites the data are read before the analyzer. The search for bonds reads them in that order.", "quantifier": "every sequence of site changes and reads, every analyser, every comparison of sites under which equal sites have equal symmetry", "why_tests_cant": "the cache has three fields and the failure depends on the order of reads over whole histories", "anchors": ["src/baderkit/core/toolkit/structure.py: Structure.spacegroup_analyzer, symmetry_data, equivalent_atoms", "src/baderkit/core/labelers/elf_labeler/elf_radii.py lines 173-177"]}
{"id": "C269", "title": "Claim refuted: assigned symmetry settings are used", "statement": "After structure.symmetry_kwargs = new, the analyzer and the symmetry data are computed with the new settings. Refuted: the setter clears the data but keeps the analyzer, so once the analyzer has been read every later answer uses the old settings until the sites change.", "quantifier": "every structure whose symmetry was read before the assignment", "why_tests_cant": "no test assigns symmetry_kwargs after reading the symmetry", "anchors": ["src/baderkit/core/toolkit/structure.py: Structure.symmetry_kwargs setter"]}
{"id": "C270", "title": "Claim refuted: symmetry data follow the sites", "statement": "symmetry_data is the dataset of the present sites. Refuted: when the sites change and the analyzer is read first, the saved sites are updated and the old data are taken for current.", "quantifier": "every structure", "why_tests_cant": "needs data read, change, analyzer read, data read in this order", "anchors": ["src/baderkit/core/toolkit/structure.py: Structure.spacegroup_analyzer, symmetry_data"]}
{"id": "C271", "title": "Claim refuted: a failing symmetry search keeps failing", "statement": "When the symmetry search fails for the present sites, reading the symmetry raises each time. Refuted: the sites are saved before the search, so the second read returns the analysis of the former sites without an error.", "quantifier": "every structure analysed before and changed to sites whose search fails", "why_tests_cant": "needs a failing search and a repeated read", "anchors": ["src/baderkit/core/toolkit/structure.py: Structure.spacegroup_analyzer lines 258-260"]}
{"id": "C272", "title": "Claim refuted: shells and lone pairs are coordinated to their nearest atom alone", "statement": "After the labelling, coord_indices of every shell, core and lone pair is its nearest atom and nothing else. Refuted: the check for covalent bonds stores CrystalNN neighbours of a feature that has no label yet, and the branches for ionic lone pairs and mislabelled shells do not discard them (the branch for molecules does).", "quantifier": "every graph and geometry", "why_tests_cant": "needs an ionic lone pair that lies between two atoms within tolerance and has other than two neighbours", "anchors": ["src/baderkit/core/labelers/elf_labeler/elf_labeler.py: _mark_covalent line 2299, _mark_lonepairs lines 2387-2403", "src/baderkit/core/labelers/bifurcation_graph/nodes.py: IrreducibleNode.coord_indices"]}
{"id": "C273", "title": "A feature's neighbours are its nearest atom, its CrystalNN neighbours or its bond's two atoms", "statement": "After a successful labelling, coord_indices of any feature is one of three lists: the single nearest atom, the CrystalNN neighbours of its position, or, only when the feature lies within tolerance of the line between two atoms, exactly those two atoms. No stored list is ever a mixture or belongs to another feature.", "quantifier": "every graph, geometry, setting and feature", "why_tests_cant": "the stored list depends on which of several passes first read it, and every pass may store or discard it", "anchors": ["src/baderkit/core/labelers/bifurcation_graph/nodes.py: IrreducibleNode.coord_indices", "src/baderkit/core/labelers/elf_labeler/elf_labeler.py: _mark_covalent, _mark_lonepairs"]}
{"id": "C274", "title": "Claim refuted: stored symmetry follows sites edited in place", "statement": "When a site object is edited in place (its coordinates, or the lattice of all sites as structure.lattice = new does in pymatgen), the symmetry is computed anew. Refuted: the saved tuple holds the same site objects, so it always equals the present sites. After the first read every answer stays that of the sites before the edits, until sites are added, removed or replaced.", "quantifier": "every structure, every sequence of edits, reads and assignments of settings", "why_tests_cant": "needs aliasing between the saved tuple and the structure over a history of edits", "anchors": ["src/baderkit/core/toolkit/structure.py: Structure.spacegroup_analyzer line 258, symmetry_data"]}
{"id": "C275", "title": "Every keyword given to ElfLabeler takes effect, every one left out has its default", "statement": "When ElfLabeler(charge_grid=.., reference_grid=.., **kwargs) succeeds, each of its 14 stored settings is the value given or the documented default. Its Bader analysis uses the two grids, the method, basin_tol and vacuum_tol given (or their defaults, True meaning 0.001), and the vacuum of the charge grid. The call succeeds exactly when both grids are given, no keyword is repeated, the method exists and use_reference_vacuum is not given.", "quantifier": "every set of keyword arguments", "why_tests_cant": "keywords pass through two constructors, and each combination of names is a different call", "anchors": ["src/baderkit/core/labelers/elf_labeler/elf_labeler.py: ElfLabeler.__init__", "src/baderkit/core/bader/bader.py: Bader.__init__"]}
{"id": "C276", "title": "Settings for both spins and for BadELF reach their labelers", "statement": "SpinElfLabeler hands every keyword to the labelers of both spins with the grids of that spin (one labeler serves both when the spins agree). Badelf makes its labeler from its elf_labeler dictionary and its own grids, and keeps its own method apart from the Bader method. SpinBadelf hands the dictionary to the labelers and its other keywords to both BadELF runs.", "quantifier": "every set of keyword arguments, every splitting of grids", "why_tests_cant": "three layers of constructors share keyword names such as method", "anchors": ["src/baderkit/core/labelers/elf_labeler/elf_labeler_spin.py: SpinElfLabeler.__init__", "src/baderkit/core/badelf/badelf.py: Badelf.__init__", "src/baderkit/core/badelf/badelf_spin.py: SpinBadelf.__init__"]}
{"id": "C277", "title": "Claim refuted: a keyword that is not used is reported", "statement": "A keyword that no constructor uses raises an error. Refuted: a keyword unknown to ElfLabeler and Bader changes nothing and raises nothing, and Badelf drops every keyword outside its own five, such as min_covalent_charge given to it instead of to its elf_labeler dictionary.", "quantifier": "every set of keyword arguments and every unknown keyword", "why_tests_cant": "nothing observable happens", "anchors": ["src/baderkit/core/badelf/badelf.py: Badelf.__init__ **kwargs", "src/baderkit/core/bader/bader.py: Bader.__init__ **kwargs"]}
{"id": "C278", "title": "Claim refuted: max_metal_depth is used", "statement": "The setting max_metal_depth of ElfLabeler changes the labeler. Refuted: it is accepted and documented but never stored, so the labeler is the same for every value and for none. The method _mark_metallic that would read it is never called.", "quantifier": "every set of keyword arguments and every value", "why_tests_cant": "nothing observable happens", "anchors": ["src/baderkit/core/labelers/elf_labeler/elf_labeler.py: ElfLabeler.__init__, _mark_metallic"]}
{"id": "C279", "title": "A Bader summary without a POTCAR can be written as JSON", "statement": "Without a POTCAR, Bader.to_json succeeds, and the document holds the method settings, the structure as POSCAR text and every atom, basin and total quantity, arrays as lists.", "quantifier": "all Bader objects whose attributes have their documented kinds", "why_tests_cant": "The statement covers every combination of attribute values, including missing ones.", "anchors": ["src/baderkit/core/bader/bader.py: Bader.to_dict, Bader.to_json, Bader.write_json"]}
{"id": "C280", "title": "Claim refuted: a Bader summary with a POTCAR can be written as JSON", "statement": "Refuted claim: Bader.to_json and write_json succeed when a POTCAR is found. The oxidation states are left as a numpy array in the dictionary, and for every object and every POTCAR the JSON encoder raises.", "quantifier": "all Bader objects and POTCARs", "why_tests_cant": "Tests without a POTCAR in the working directory never see the branch; the failure is proved for all objects.", "anchors": ["src/baderkit/core/bader/bader.py: Bader.to_dict, Bader.get_oxidation_from_potcar"]}
{"id": "C281", "title": "A BadELF summary can be written as JSON", "statement": "Badelf.to_json succeeds with and without a POTCAR and holds the settings and every result, arrays as lists and structures as POSCAR text. Oxidation states are reported exactly for a total-spin run with a POTCAR.", "quantifier": "all Badelf objects whose attributes have their documented kinds, all POTCARs", "why_tests_cant": "All combinations of attributes, spin systems and POTCARs are covered.", "anchors": ["src/baderkit/core/badelf/badelf.py: Badelf.to_dict, Badelf.to_json"]}
{"id": "C282", "title": "A spin BadELF summary can be written as JSON", "statement": "SpinBadelf.to_json succeeds with and without a POTCAR and holds the combined results, with the settings of the spin-up run.", "quantifier": "all SpinBadelf objects whose attributes have their documented kinds, all POTCARs", "why_tests_cant": "All combinations of attributes and POTCARs are covered.", "anchors": ["src/baderkit/core/badelf/badelf_spin.py: SpinBadelf.to_dict, SpinBadelf.to_json"]}
{"id": "C283", "title": "Claim refuted: a spin BadELF summary reports the labeler's settings", "statement": "Refuted claim: the settings given to SpinBadelf for its labeler appear in the summary. Each spin gets its labeler as an object, so elf_labeler_kwargs is null whatever was given.", "quantifier": "all settings of the labeler", "why_tests_cant": "The loss is proved for every setting.", "anchors": ["src/baderkit/core/badelf/badelf_spin.py: SpinBadelf.__init__, SpinBadelf.to_dict", "src/baderkit/core/badelf/badelf.py: Badelf.__init__"]}
{"id": "C284", "title": "Summaries of the ELF labelers can be written as JSON", "statement": "ElfLabeler.to_json and SpinElfLabeler.to_json succeed and hold the structures, arrays and lists of the object and the charges and volumes of the splitting method weighted_dist with and without electrides. Oxidation states are given when a POTCAR exists, for ElfLabeler only in a total-spin run.", "quantifier": "all labelers whose attributes have their documented kinds, all POTCARs, all values of splitting_method", "why_tests_cant": "All combinations of attributes, POTCARs and methods are covered.", "anchors": ["src/baderkit/core/labelers/elf_labeler/elf_labeler.py: ElfLabeler.to_dict, ElfLabeler.to_json", "src/baderkit/core/labelers/elf_labeler/elf_labeler_spin.py: SpinElfLabeler.to_dict, SpinElfLabeler.to_json"]}
{"id": "C285", "title": "Claim refuted: the splitting method of a labeler summary is used", "statement": "Refuted claim: the charges in the summary of ElfLabeler and SpinElfLabeler are those of the splitting_method the summary names. The argument is reported but not passed on; the charges are always those of weighted_dist.", "quantifier": "all splitting methods", "why_tests_cant": "With the default argument the two agree.", "anchors": ["src/baderkit/core/labelers/elf_labeler/elf_labeler.py: ElfLabeler.to_dict", "src/baderkit/core/labelers/elf_labeler/elf_labeler_spin.py: SpinElfLabeler.to_dict"]}
{"id": "C286", "title": "Claim refuted: a labeler summary reports all settings", "statement": "Refuted claim: the method_kwargs of an ElfLabeler summary tell the settings the object was made with. combine_shells, shallow_reducible_cutoff and shallow_irreducible_cutoff are not reported: changing one of them changes nothing in what to_dict reports as settings.", "quantifier": "all labelers and all values of the three settings", "why_tests_cant": "The statement compares all pairs of labelers.", "anchors": ["src/baderkit/core/labelers/elf_labeler/elf_labeler.py: ElfLabeler.to_dict, ElfLabeler.__init__"]}
